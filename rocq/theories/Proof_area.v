(** * Areas of tilings *)
From Coq Require Import List Arith QArith Qminmax Lqa Lia Field.
Import ListNotations.
Local Open Scope Q_scope.

(** ** Functions that are constant on short intervals *)
Lemma constant_between : forall (l : list Q) (B : Q -> Q),
  (forall a b, a < b -> (forall v, In v l -> ~ (a < v /\ v < b)) -> B a == B b) -> forall a b, a < b -> B a == B b.
Proof.
  induction l as [ | v l IH]; intros B H a b L.
  - apply H; [ exact L | intros v [] ].
  - apply IH; [ | exact L ]. clear a b L. intros a b L N.
    destruct (Qlt_le_dec a v) as [La | La].
    + destruct (Qlt_le_dec v b) as [Lb | Lb].
      * transitivity (B v); apply H; try assumption; intros w [<- | J]; try lra; intros (X & Y); apply (N w J); lra.
      * apply H; [ exact L | ]. intros w [<- | J]; [ lra | exact (N w J) ].
    + apply H; [ exact L | ]. intros w [<- | J]; [ lra | exact (N w J) ].
Qed.

(** ** Intervals that cover an interval *)
Fixpoint qsum2 (l : list (Q * Q)) : Q := match l with [] => 0 | (a, b) :: l => (b - a) + qsum2 l end.

Lemma qsum2_app : forall l k, qsum2 (l ++ k) == qsum2 l + qsum2 k.
Proof. induction l as [ | [a b] l IH]; intro k; cbn [qsum2 app]; [ ring | rewrite IH; ring ]. Qed.

Definition covers (A B : Q) (l : list (Q * Q)) : Prop :=
  (forall a b, In (a, b) l -> A <= a /\ a < b /\ b <= B) /\
  (forall y, A <= y <= B -> exists a b, In (a, b) l /\ a <= y <= b) /\
  (forall i j a b c d y, nth_error l i = Some (a, b) -> nth_error l j = Some (c, d) -> a < y < b -> c < y < d -> i = j).

(** A point above [A] and below all the numbers that are above [A]. *)
Lemma just_above : forall (l : list Q) A B, A < B -> exists y, A < y < B /\ forall v, In v l -> A < v -> y < v.
Proof.
  induction l as [ | v l IH]; intros A B L.
  - exists ((1 # 2) * (A + B)). split; [ lra | intros v [] ].
  - destruct (IH A B L) as (y & Hy & N). destruct (Qlt_le_dec A v) as [Lv | Lv].
    + destruct (Qlt_le_dec y v) as [Ly | Ly].
      * exists y. split; [ exact Hy | ]. intros w [<- | J]; [ auto | exact (N w J) ].
      * exists ((1 # 2) * (A + v)). split; [ lra | ]. intros w [<- | J] Lw; [ lra | ]. specialize (N w J Lw). lra.
    + exists y. split; [ exact Hy | ]. intros w [<- | J] Lw; [ lra | exact (N w J Lw) ].
Qed.

Lemma nth_app_cons : forall {A} (l k : list A) x i y, nth_error (l ++ k) i = Some y ->
  exists j, nth_error (l ++ x :: k) j = Some y /\ j <> length l /\ (forall i' y', nth_error (l ++ k) i' = Some y' -> forall j', nth_error (l ++ x :: k) j' = Some y' -> True) /\ (i = if (j <? length l)%nat then j else (j - 1)%nat).
Proof.
  intros A l k x i y H. destruct (Nat.lt_ge_cases i (length l)) as [L | L].
  - exists i. rewrite nth_error_app1 in H by exact L. rewrite nth_error_app1 by exact L. repeat split; auto; [ lia | ]. apply Nat.ltb_lt in L. rewrite L. reflexivity.
  - exists (Datatypes.S i). rewrite nth_error_app2 in H by exact L. rewrite nth_error_app2 by lia. replace (Datatypes.S i - length l)%nat with (Datatypes.S (i - length l)) by lia. repeat split; auto; [ lia | ].
    assert (X : (Datatypes.S i <? length l)%nat = false) by (apply Nat.ltb_ge; lia). rewrite X. lia.
Qed.

Lemma covers_sum : forall n (l : list (Q * Q)), length l = n -> forall A B, A < B -> covers A B l -> qsum2 l == B - A.
Proof.
  induction n as [ | n IH]; intros l Ln A B L (In0 & Cov & Ap).
  { destruct l; [ | discriminate ]. destruct (Cov A ltac:(lra)) as (a & b & [] & _). }
  destruct (just_above (map fst l ++ map snd l) A B L) as (y & Hy & N).
  destruct (Cov y ltac:(lra)) as (a & b & J & Hab). destruct (In0 a b J) as (A1 & A2 & A3).
  assert (Ea : a == A). { destruct (Qlt_le_dec A a) as [X | X]; [ | lra ]. assert (y < a) by (apply N; [ apply in_app_iff; left; apply (in_map fst) in J; exact J | exact X ]). lra. }
  assert (Lb : A < b) by lra. apply in_split in J. destruct J as (l1 & l2 & ->).
  assert (Sum : qsum2 (l1 ++ (a, b) :: l2) == (b - a) + qsum2 (l1 ++ l2)) by (rewrite !qsum2_app; cbn [qsum2]; ring). rewrite Sum, Ea.
  assert (Rest : forall c d, In (c, d) (l1 ++ l2) -> In (c, d) (l1 ++ (a, b) :: l2)) by (intros c d J; apply in_app_iff in J; apply in_app_iff; destruct J as [J | J]; [ left | right; right ]; exact J).
  (* the others do not start before its end *)
  assert (After : forall c d, In (c, d) (l1 ++ l2) -> b <= c).
  { intros c d J. destruct (Qlt_le_dec c b) as [X | X]; [ exfalso | exact X ]. destruct (In0 c d (Rest c d J)) as (C1 & C2 & C3).
    apply In_nth_error in J. destruct J as (i & Ei). destruct (nth_app_cons l1 l2 (a, b) i (c, d) Ei) as (j & Ej & Nj & _).
    assert (Em : nth_error (l1 ++ (a, b) :: l2) (length l1) = Some (a, b)) by (rewrite nth_error_app2, Nat.sub_diag by lia; reflexivity).
    apply Nj. set (z := (1 # 2) * (c + Qmin b d)). pose proof (Q.min_glb_lt b d c X C2) as M1. pose proof (Q.le_min_l b d) as M2. pose proof (Q.le_min_r b d) as M3. apply (Ap j (length l1) c d a b z Ej Em); unfold z; lra. }
  assert (Lr : length (l1 ++ l2) = n) by (rewrite app_length in *; cbn in Ln; lia).
  destruct (Qlt_le_dec b B) as [LB | LB].
  - rewrite (IH (l1 ++ l2) Lr b B LB); [ ring | ]. split; [ | split ].
    + intros c d J. destruct (In0 c d (Rest c d J)) as (C1 & C2 & C3). pose proof (After c d J). lra.
    + (* close to y, and so at y *)
      intros w Hw. destruct (Qlt_le_dec b w) as [X | X].
      * destruct (Cov w ltac:(lra)) as (c & d & J & Hc). apply in_app_iff in J. cbn [In] in J. destruct J as [J | [J | J] ]; [ | injection J as <- <-; lra | ]; exists c, d; (split; [ apply in_app_iff; auto | exact Hc ]).
      * assert (Ew : w == b) by lra. destruct (just_above (map fst (l1 ++ l2)) b B LB) as (v & Hv & Nv).
        destruct (Cov v ltac:(lra)) as (c & d & J & Hc). assert (J' : In (c, d) (l1 ++ l2)) by (apply in_app_iff in J; cbn [In] in J; destruct J as [J | [J | J] ]; [ | injection J as <- <-; lra | ]; apply in_app_iff; auto).
        exists c, d. split; [ exact J' | ]. pose proof (After c d J'). destruct (Qlt_le_dec b c) as [Y | Y]; [ | lra ]. assert (v < c) by (apply Nv; [ apply (in_map fst) in J'; exact J' | exact Y ]). lra.
    + intros i j c d c' d' w Ei Ej H1 H2. destruct (nth_app_cons l1 l2 (a, b) i _ Ei) as (i' & Ei' & _ & _ & Fi). destruct (nth_app_cons l1 l2 (a, b) j _ Ej) as (j' & Ej' & _ & _ & Fj).
      assert (i' = j') by exact (Ap i' j' _ _ _ _ w Ei' Ej' H1 H2). subst j'. congruence.
  - assert (Eb : b == B) by lra. destruct (l1 ++ l2) as [ | [c d] k] eqn:E; [ cbn [qsum2]; lra | exfalso ].
    assert (J : In (c, d) ((c, d) :: k)) by (left; reflexivity). pose proof (After c d J). destruct (In0 c d (Rest c d J)) as (C1 & C2 & C3). lra.
Qed.

(** ** Sections of a triangle *)
Definition pt := (Q * Q)%type.
Definition tri2 := (pt * pt * pt)%type.
(** Twice the area of the triangle of [p], [q] and [z], counted as negative if they turn right. *)
Definition edge (p q z : pt) : Q := (fst q - fst p) * (snd z - snd p) - (snd q - snd p) * (fst z - fst p).
Definition dbl (T : tri2) : Q := let '(p, q, r) := T in edge p q r.
Definition in2 (T : tri2) (z : pt) : Prop := let '(p, q, r) := T in 0 <= edge p q z /\ 0 <= edge q r z /\ 0 <= edge r p z.
Definition open2 (T : tri2) (z : pt) : Prop := let '(p, q, r) := T in 0 < edge p q z /\ 0 < edge q r z /\ 0 < edge r p z.

(** The line through [p] and [q]. *)
Definition line (p q : pt) (s : Q) : Q := snd p + (snd q - snd p) * (s - fst p) / (fst q - fst p).
(** What a side adds to the length of the section at [s]. *)
Definition part (p q : pt) (s : Q) : Q :=
  if Qlt_le_dec (fst p) s then if Qlt_le_dec s (fst q) then - line p q s else 0
  else if Qlt_le_dec (fst q) s then if Qlt_le_dec s (fst p) then line q p s else 0 else 0.
Definition len (T : tri2) (s : Q) : Q := let '(p, q, r) := T in part p q s + part q r s + part r p s.
Definition misses (s : Q) (T : tri2) : Prop := let '(p, q, r) := T in ~ fst p == s /\ ~ fst q == s /\ ~ fst r == s.

Definition section (T : tri2) (s : Q) : Prop :=
  (len T s == 0 /\ forall y, ~ in2 T (s, y)) \/
  (exists a b, a < b /\ len T s == b - a /\ (forall y, in2 T (s, y) <-> a <= y <= b) /\ (forall y, a < y < b -> open2 T (s, y))).

Lemma section_turn : forall p q r s, section (p, q, r) s -> section (q, r, p) s.
Proof.
  intros p q r s H. assert (L : len (q, r, p) s == len (p, q, r) s) by (cbn [len]; ring). assert (I : forall z, in2 (q, r, p) z <-> in2 (p, q, r) z) by (intro z; cbn [in2]; tauto). assert (O : forall z, open2 (p, q, r) z -> open2 (q, r, p) z) by (intro z; cbn [open2]; tauto).
  destruct H as [ (E & N) | (a & b & A & E & I' & O') ]; [ left | right; exists a, b ].
  - split; [ rewrite L; exact E | intros y X; apply (N y), I, X ].
  - split; [ exact A | ]. split; [ rewrite L; exact E | ]. split; [ intro y; rewrite I; apply I' | intros y Y; apply O, O', Y ].
Qed.

(** The line is above or below a point. *)
Lemma edge_line : forall p q s y, ~ fst p == fst q -> edge p q (s, y) == (fst q - fst p) * (y - line p q s).
Proof. intros p q s y N. unfold edge, line. cbn [fst snd]. field. intro E. apply N. lra. Qed.
Lemma edge_sum : forall p q r z, edge p q z + edge q r z + edge r p z == edge p q r.
Proof. intros p q r z. unfold edge. ring. Qed.
Lemma line_sym : forall p q s, ~ fst p == fst q -> line p q s == line q p s.
Proof. intros p q s N. unfold line. field. split; intro E; apply N; lra. Qed.

(** [p] is on the one side, [q] and [r] on the other. *)
Lemma section_left : forall p q r s, 0 < edge p q r -> fst p < s -> s < fst q -> s < fst r -> section (p, q, r) s.
Proof.
  intros p q r s D P Q0 R. right. exists (line p q s), (line p r s).
  assert (Gap : (line p r s - line p q s) * ((fst q - fst p) * (fst r - fst p)) == (s - fst p) * edge p q r) by (unfold line, edge; field; lra).
  assert (Pos : 0 < (fst q - fst p) * (fst r - fst p)) by (apply Qmult_lt_0_compat; lra). assert (Pos' : 0 < (s - fst p) * edge p q r) by (apply Qmult_lt_0_compat; lra).
  assert (Lt : line p q s < line p r s).
  { destruct (Qlt_le_dec (line p q s) (line p r s)) as [X | X]; [ exact X | exfalso ]. assert (0 <= (line p q s - line p r s) * ((fst q - fst p) * (fst r - fst p))) by (apply Qmult_le_0_compat; lra). lra. }
  assert (E1 : forall y, edge p q (s, y) == (fst q - fst p) * (y - line p q s)) by (intro y; apply edge_line; lra).
  assert (E3 : forall y, edge r p (s, y) == (fst r - fst p) * (line p r s - y)) by (intro y; rewrite (edge_line r p) by lra; rewrite (line_sym r p) by lra; ring).
  (* the third side *)
  assert (E2 : forall y, line p q s <= y <= line p r s -> 0 < edge q r (s, y)).
  { intros y (Y1 & Y2). set (u := line p q s) in *. set (w := line p r s) in *.
    assert (Hu : (fst q - fst p) * edge q r (s, u) == (fst q - s) * edge p q r) by (unfold u, line, edge; cbn [fst snd]; field; lra).
    assert (Hw : (fst r - fst p) * edge q r (s, w) == (fst r - s) * edge p q r) by (unfold w, line, edge; cbn [fst snd]; field; lra).
    assert (Ku : 0 < edge q r (s, u)). { destruct (Qlt_le_dec 0 (edge q r (s, u))) as [X | X]; [ exact X | exfalso ]. assert (0 < (fst q - s) * edge p q r) by (apply Qmult_lt_0_compat; lra). assert (0 <= (fst q - fst p) * - edge q r (s, u)) by (apply Qmult_le_0_compat; lra). lra. }
    assert (Kw : 0 < edge q r (s, w)). { destruct (Qlt_le_dec 0 (edge q r (s, w))) as [X | X]; [ exact X | exfalso ]. assert (0 < (fst r - s) * edge p q r) by (apply Qmult_lt_0_compat; lra). assert (0 <= (fst r - fst p) * - edge q r (s, w)) by (apply Qmult_le_0_compat; lra). lra. }
    assert (Mix : (w - u) * edge q r (s, y) == (w - y) * edge q r (s, u) + (y - u) * edge q r (s, w)) by (unfold edge; cbn [fst snd]; ring).
    destruct (Qlt_le_dec 0 (edge q r (s, y))) as [X | X]; [ exact X | exfalso ]. assert (0 <= (w - u) * - edge q r (s, y)) by (apply Qmult_le_0_compat; lra).
    assert (0 <= (w - y) * edge q r (s, u)) by (apply Qmult_le_0_compat; lra). assert (0 <= (y - u) * edge q r (s, w)) by (apply Qmult_le_0_compat; lra).
    assert (Z1 : (w - y) * edge q r (s, u) == 0) by lra. assert (Z2 : (y - u) * edge q r (s, w) == 0) by lra. apply Qmult_integral in Z1, Z2. destruct Z1 as [Z1 | Z1], Z2 as [Z2 | Z2]; lra. }
  assert (Mul : forall k x, 0 < k -> (0 <= k * x <-> 0 <= x)).
  { intros k x K. split; intro H; [ | apply Qmult_le_0_compat; lra ]. destruct (Qlt_le_dec x 0) as [X | X]; [ exfalso | exact X ]. assert (0 < k * - x) by (apply Qmult_lt_0_compat; lra). lra. }
  split; [ exact Lt | ]. split; [ | split ].
  - cbn [len]. unfold part. destruct (Qlt_le_dec (fst p) s); [ | lra ]. destruct (Qlt_le_dec s (fst q)); [ | lra ]. destruct (Qlt_le_dec (fst q) s); [ lra | ]. destruct (Qlt_le_dec (fst r) s); [ lra | ]. destruct (Qlt_le_dec s (fst r)); [ | lra ]. lra.
  - intro y. cbn [in2]. rewrite E1, E3, (Mul (fst q - fst p)), (Mul (fst r - fst p)) by lra. split; [ intros (X & _ & Y); lra | ]. intro Y. repeat split; [ lra | | lra ]. apply Qlt_le_weak, E2, Y.
  - intros y Y. cbn [open2]. rewrite E1, E3. repeat split; [ apply Qmult_lt_0_compat; lra | apply E2; lra | apply Qmult_lt_0_compat; lra ].
Qed.
Lemma section_right : forall p q r s, 0 < edge p q r -> s < fst p -> fst q < s -> fst r < s -> section (p, q, r) s.
Proof.
  intros p q r s D P Q0 R. right. exists (line p r s), (line p q s).
  assert (Gap : (line p q s - line p r s) * ((fst p - fst q) * (fst p - fst r)) == (fst p - s) * edge p q r) by (unfold line, edge; field; lra).
  assert (Pos : 0 < (fst p - fst q) * (fst p - fst r)) by (apply Qmult_lt_0_compat; lra). assert (Pos' : 0 < (fst p - s) * edge p q r) by (apply Qmult_lt_0_compat; lra).
  assert (Lt : line p r s < line p q s).
  { destruct (Qlt_le_dec (line p r s) (line p q s)) as [X | X]; [ exact X | exfalso ]. assert (0 <= (line p r s - line p q s) * ((fst p - fst q) * (fst p - fst r))) by (apply Qmult_le_0_compat; lra). lra. }
  assert (E1 : forall y, edge p q (s, y) == (fst p - fst q) * (line p q s - y)) by (intro y; rewrite (edge_line p q) by lra; ring).
  assert (E3 : forall y, edge r p (s, y) == (fst p - fst r) * (y - line p r s)) by (intro y; rewrite (edge_line r p) by lra; rewrite (line_sym r p) by lra; ring).
  assert (E2 : forall y, line p r s <= y <= line p q s -> 0 < edge q r (s, y)).
  { intros y (Y1 & Y2). set (u := line p q s) in *. set (w := line p r s) in *.
    assert (Hu : (fst p - fst q) * edge q r (s, u) == (s - fst q) * edge p q r) by (unfold u, line, edge; cbn [fst snd]; field; lra).
    assert (Hw : (fst p - fst r) * edge q r (s, w) == (s - fst r) * edge p q r) by (unfold w, line, edge; cbn [fst snd]; field; lra).
    assert (Ku : 0 < edge q r (s, u)). { destruct (Qlt_le_dec 0 (edge q r (s, u))) as [X | X]; [ exact X | exfalso ]. assert (0 < (s - fst q) * edge p q r) by (apply Qmult_lt_0_compat; lra). assert (0 <= (fst p - fst q) * - edge q r (s, u)) by (apply Qmult_le_0_compat; lra). lra. }
    assert (Kw : 0 < edge q r (s, w)). { destruct (Qlt_le_dec 0 (edge q r (s, w))) as [X | X]; [ exact X | exfalso ]. assert (0 < (s - fst r) * edge p q r) by (apply Qmult_lt_0_compat; lra). assert (0 <= (fst p - fst r) * - edge q r (s, w)) by (apply Qmult_le_0_compat; lra). lra. }
    assert (Mix : (u - w) * edge q r (s, y) == (y - w) * edge q r (s, u) + (u - y) * edge q r (s, w)) by (unfold edge; cbn [fst snd]; ring).
    destruct (Qlt_le_dec 0 (edge q r (s, y))) as [X | X]; [ exact X | exfalso ]. assert (0 <= (u - w) * - edge q r (s, y)) by (apply Qmult_le_0_compat; lra).
    assert (0 <= (y - w) * edge q r (s, u)) by (apply Qmult_le_0_compat; lra). assert (0 <= (u - y) * edge q r (s, w)) by (apply Qmult_le_0_compat; lra).
    assert (Z1 : (y - w) * edge q r (s, u) == 0) by lra. assert (Z2 : (u - y) * edge q r (s, w) == 0) by lra. apply Qmult_integral in Z1, Z2. destruct Z1 as [Z1 | Z1], Z2 as [Z2 | Z2]; lra. }
  assert (Mul : forall k x, 0 < k -> (0 <= k * x <-> 0 <= x)).
  { intros k x K. split; intro H; [ | apply Qmult_le_0_compat; lra ]. destruct (Qlt_le_dec x 0) as [X | X]; [ exfalso | exact X ]. assert (0 < k * - x) by (apply Qmult_lt_0_compat; lra). lra. }
  split; [ exact Lt | ]. split; [ | split ].
  - cbn [len]. unfold part. pose proof (line_sym p q s ltac:(lra)). pose proof (line_sym p r s ltac:(lra)). destruct (Qlt_le_dec (fst p) s); [ lra | ]. destruct (Qlt_le_dec (fst q) s); [ | lra ]. destruct (Qlt_le_dec s (fst p)); [ | lra ]. destruct (Qlt_le_dec s (fst r)); [ lra | ]. destruct (Qlt_le_dec (fst r) s); [ | lra ]. lra.
  - intro y. cbn [in2]. rewrite E1, E3, (Mul (fst p - fst q)), (Mul (fst p - fst r)) by lra. split; [ intros (X & _ & Y); lra | ]. intro Y. repeat split; [ lra | | lra ]. apply Qlt_le_weak, E2, Y.
  - intros y Y. cbn [open2]. rewrite E1, E3. repeat split; [ apply Qmult_lt_0_compat; lra | apply E2; lra | apply Qmult_lt_0_compat; lra ].
Qed.

Lemma section_of : forall T s, 0 < dbl T -> misses s T -> section T s.
Proof.
  intros [ [p q] r] s D (Mp & Mq & Mr). cbn [dbl] in D.
  assert (D1 : 0 < edge q r p) by (unfold edge in *; lra). assert (D2 : 0 < edge r p q) by (unfold edge in *; lra).
  assert (Avg : forall y, edge q r (s, y) * (fst p - s) + edge r p (s, y) * (fst q - s) + edge p q (s, y) * (fst r - s) == 0) by (intro y; unfold edge; cbn [fst snd]; ring).
  destruct (Qlt_le_dec (fst p) s) as [P | P], (Qlt_le_dec (fst q) s) as [Q0 | Q0], (Qlt_le_dec (fst r) s) as [R | R];
    try (assert (s < fst p) by (destruct (Qlt_le_dec s (fst p)); [ assumption | elim Mp; lra ])); try (assert (s < fst q) by (destruct (Qlt_le_dec s (fst q)); [ assumption | elim Mq; lra ])); try (assert (s < fst r) by (destruct (Qlt_le_dec s (fst r)); [ assumption | elim Mr; lra ])).
  - left. split; [ cbn [len]; unfold part | intros y (X & Y & Z) ].
    + destruct (Qlt_le_dec (fst p) s), (Qlt_le_dec (fst q) s), (Qlt_le_dec (fst r) s), (Qlt_le_dec s (fst p)), (Qlt_le_dec s (fst q)), (Qlt_le_dec s (fst r)); lra.
    + specialize (Avg y). pose proof (edge_sum p q r (s, y)) as Sm. assert (0 <= edge q r (s, y) * (s - fst p)) by (apply Qmult_le_0_compat; lra). assert (0 <= edge r p (s, y) * (s - fst q)) by (apply Qmult_le_0_compat; lra). assert (0 <= edge p q (s, y) * (s - fst r)) by (apply Qmult_le_0_compat; lra).
      assert (Z1 : edge q r (s, y) * (s - fst p) == 0) by lra. assert (Z2 : edge r p (s, y) * (s - fst q) == 0) by lra. assert (Z3 : edge p q (s, y) * (s - fst r) == 0) by lra. apply Qmult_integral in Z1, Z2, Z3. destruct Z1, Z2, Z3; lra.
  - apply section_turn, section_right; assumption.
  - apply section_turn, section_turn, section_right; assumption.
  - apply section_left; assumption.
  - apply section_right; assumption.
  - apply section_turn, section_turn, section_left; assumption.
  - apply section_turn, section_left; assumption.
  - left. split; [ cbn [len]; unfold part | intros y (X & Y & Z) ].
    + destruct (Qlt_le_dec (fst p) s), (Qlt_le_dec (fst q) s), (Qlt_le_dec (fst r) s), (Qlt_le_dec s (fst p)), (Qlt_le_dec s (fst q)), (Qlt_le_dec s (fst r)); lra.
    + specialize (Avg y). pose proof (edge_sum p q r (s, y)) as Sm. assert (0 <= edge q r (s, y) * (fst p - s)) by (apply Qmult_le_0_compat; lra). assert (0 <= edge r p (s, y) * (fst q - s)) by (apply Qmult_le_0_compat; lra). assert (0 <= edge p q (s, y) * (fst r - s)) by (apply Qmult_le_0_compat; lra).
      assert (Z1 : edge q r (s, y) * (fst p - s) == 0) by lra. assert (Z2 : edge r p (s, y) * (fst q - s) == 0) by lra. assert (Z3 : edge p q (s, y) * (fst r - s) == 0) by lra. apply Qmult_integral in Z1, Z2, Z3. destruct Z1, Z2, Z3; lra.
Qed.

(** ** The area to the left of a line *)
Definition anti (p q : pt) (x : Q) : Q := snd p * (x - fst p) + (snd q - snd p) * (x - fst p) * (x - fst p) / (2 * (fst q - fst p)).
Definition clamp (u v x : Q) : Q := if Qlt_le_dec x u then u else if Qlt_le_dec v x then v else x.
Definition cum (p q : pt) (x : Q) : Q :=
  if Qlt_le_dec (fst p) (fst q) then - anti p q (clamp (fst p) (fst q) x)
  else if Qlt_le_dec (fst q) (fst p) then anti q p (clamp (fst q) (fst p) x) else 0.
Definition left_of (T : tri2) (x : Q) : Q := let '(p, q, r) := T in cum p q x + cum q r x + cum r p x.

Lemma clamp_low : forall u v x, u < v -> x <= u -> clamp u v x == u.
Proof. intros u v x L H. unfold clamp. destruct (Qlt_le_dec x u); [ reflexivity | ]. destruct (Qlt_le_dec v x); lra. Qed.
Lemma clamp_high : forall u v x, u < v -> v <= x -> clamp u v x == v.
Proof. intros u v x L H. unfold clamp. destruct (Qlt_le_dec x u); [ lra | ]. destruct (Qlt_le_dec v x); lra. Qed.
Lemma clamp_mid : forall u v x, u <= x -> x <= v -> clamp u v x == x.
Proof. intros u v x L H. unfold clamp. destruct (Qlt_le_dec x u); [ lra | ]. destruct (Qlt_le_dec v x); lra. Qed.
Lemma anti_eq : forall p q x y, x == y -> anti p q x == anti p q y.
Proof. intros p q x y E. unfold anti. rewrite E. reflexivity. Qed.

Lemma anti_strip : forall p q a b, fst p < fst q -> (b - a) * line p q ((1 # 2) * (a + b)) == anti p q b - anti p q a.
Proof. intros p q a b L. unfold line, anti. field. lra. Qed.

Lemma cum_strip : forall p q a b, a < b -> ~ (a < fst p /\ fst p < b) -> ~ (a < fst q /\ fst q < b) ->
  (b - a) * part p q ((1 # 2) * (a + b)) == cum p q b - cum p q a.
Proof.
  intros p q a b L Np Nq. set (s := (1 # 2) * (a + b)). assert (Ls : a < s < b) by (unfold s; lra).
  assert (Sp : fst p <= a \/ b <= fst p) by (destruct (Qlt_le_dec a (fst p)); [ right | left; assumption ]; destruct (Qlt_le_dec (fst p) b); [ elim Np; auto | assumption ]).
  assert (Sq : fst q <= a \/ b <= fst q) by (destruct (Qlt_le_dec a (fst q)); [ right | left; assumption ]; destruct (Qlt_le_dec (fst q) b); [ elim Nq; auto | assumption ]).
  assert (Gen : forall p q, fst p < fst q -> (fst p <= a \/ b <= fst p) -> (fst q <= a \/ b <= fst q) ->
    (fst p <= a /\ b <= fst q /\ (b - a) * line p q s == anti p q (clamp (fst p) (fst q) b) - anti p q (clamp (fst p) (fst q) a)) \/
    ((b <= fst p \/ fst q <= a) /\ anti p q (clamp (fst p) (fst q) b) == anti p q (clamp (fst p) (fst q) a))).
  { clear p q Np Nq Sp Sq. intros p q Lp [Sp | Sp] [Sq | Sq].
    - right. split; [ right; exact Sq | ]. apply anti_eq. rewrite !clamp_high by lra. reflexivity.
    - left. split; [ exact Sp | ]. split; [ exact Sq | ]. rewrite (anti_eq p q _ b (clamp_mid (fst p) (fst q) b ltac:(lra) ltac:(lra))), (anti_eq p q _ a (clamp_mid (fst p) (fst q) a ltac:(lra) ltac:(lra))). apply anti_strip, Lp.
    - exfalso. lra.
    - right. split; [ left; exact Sp | ]. apply anti_eq. rewrite !clamp_low by lra. reflexivity. }
  clearbody s. unfold cum. destruct (Qlt_le_dec (fst p) (fst q)) as [Lp | Lp].
  - destruct (Gen p q Lp Sp Sq) as [ (A & B & E) | (A & E) ].
    + unfold part. destruct (Qlt_le_dec (fst p) s); [ | lra ]. destruct (Qlt_le_dec s (fst q)); lra.
    + assert (Z : part p q s == 0) by (unfold part; destruct (Qlt_le_dec (fst p) s), (Qlt_le_dec s (fst q)), (Qlt_le_dec (fst q) s), (Qlt_le_dec s (fst p)); lra). rewrite Z. lra.
  - destruct (Qlt_le_dec (fst q) (fst p)) as [Lq | Lq].
    + destruct (Gen q p Lq Sq Sp) as [ (A & B & E) | (A & E) ].
      * unfold part. destruct (Qlt_le_dec (fst p) s); [ lra | ]. destruct (Qlt_le_dec (fst q) s); [ | lra ]. destruct (Qlt_le_dec s (fst p)); lra.
      * assert (Z : part p q s == 0) by (unfold part; destruct (Qlt_le_dec (fst p) s), (Qlt_le_dec s (fst q)), (Qlt_le_dec (fst q) s), (Qlt_le_dec s (fst p)); lra). rewrite Z. lra.
    + assert (Z : part p q s == 0) by (unfold part; destruct (Qlt_le_dec (fst p) s), (Qlt_le_dec s (fst q)), (Qlt_le_dec (fst q) s), (Qlt_le_dec s (fst p)); lra). rewrite Z. ring.
Qed.

Lemma cum_start : forall p q x, x <= fst p -> x <= fst q -> cum p q x == 0.
Proof.
  intros p q x P Q0. unfold cum. destruct (Qlt_le_dec (fst p) (fst q)) as [L | L]; [ | destruct (Qlt_le_dec (fst q) (fst p)) as [L' | L']; [ | reflexivity ] ].
  - rewrite (anti_eq p q _ _ (clamp_low _ _ _ L P)). unfold anti. field. lra.
  - rewrite (anti_eq q p _ _ (clamp_low _ _ _ L' Q0)). unfold anti. field. lra.
Qed.
Lemma cum_end : forall p q x, fst p <= x -> fst q <= x -> cum p q x == (1 # 2) * ((fst p - fst q) * (snd p + snd q)).
Proof.
  intros p q x P Q0. unfold cum. destruct (Qlt_le_dec (fst p) (fst q)) as [L | L]; [ | destruct (Qlt_le_dec (fst q) (fst p)) as [L' | L'] ].
  - rewrite (anti_eq p q _ _ (clamp_high _ _ _ L Q0)). unfold anti. field. lra.
  - rewrite (anti_eq q p _ _ (clamp_high _ _ _ L' P)). unfold anti. field. lra.
  - assert (E : fst p == fst q) by lra. rewrite E. ring.
Qed.

Definition abscissae (T : tri2) : list Q := let '(p, q, r) := T in [fst p; fst q; fst r].
Lemma left_strip : forall T a b, a < b -> (forall v, In v (abscissae T) -> ~ (a < v /\ v < b)) ->
  (b - a) * len T ((1 # 2) * (a + b)) == left_of T b - left_of T a.
Proof.
  intros [ [p q] r] a b L N. cbn [len left_of abscissae] in *. assert (Np := N (fst p) (or_introl eq_refl)). assert (Nq := N (fst q) (or_intror (or_introl eq_refl))). assert (Nr := N (fst r) (or_intror (or_intror (or_introl eq_refl)))).
  pose proof (cum_strip p q a b L Np Nq). pose proof (cum_strip q r a b L Nq Nr). pose proof (cum_strip r p a b L Nr Np). lra.
Qed.
Lemma left_start : forall T x, (forall v, In v (abscissae T) -> x <= v) -> left_of T x == 0.
Proof.
  intros [ [p q] r] x N. cbn [left_of abscissae] in *. assert (Np := N (fst p) (or_introl eq_refl)). assert (Nq := N (fst q) (or_intror (or_introl eq_refl))). assert (Nr := N (fst r) (or_intror (or_intror (or_introl eq_refl)))).
  rewrite !cum_start by assumption. reflexivity.
Qed.
Lemma left_end : forall T x, (forall v, In v (abscissae T) -> v <= x) -> left_of T x == (1 # 2) * dbl T.
Proof.
  intros [ [p q] r] x N. cbn [left_of abscissae dbl] in *. assert (Np := N (fst p) (or_introl eq_refl)). assert (Nq := N (fst q) (or_intror (or_introl eq_refl))). assert (Nr := N (fst r) (or_intror (or_intror (or_introl eq_refl)))).
  rewrite !cum_end by assumption. unfold edge. ring.
Qed.

(** ** Tilings in the plane *)
Fixpoint tsum (f : tri2 -> Q) (l : list tri2) : Q := match l with [] => 0 | T :: l => f T + tsum f l end.

Lemma sections : forall s (parts : list tri2), (forall T, In T parts -> 0 < dbl T) -> (forall T, In T parts -> misses s T) ->
  (forall i j T U z, nth_error parts i = Some T -> nth_error parts j = Some U -> open2 T z -> open2 U z -> i = j) ->
  exists l, qsum2 l == tsum (fun T => len T s) parts /\
    (forall a b, In (a, b) l -> a < b /\ exists T, In T parts /\ (forall y, in2 T (s, y) <-> a <= y <= b) /\ (forall y, a < y < b -> open2 T (s, y))) /\
    (forall T y, In T parts -> in2 T (s, y) -> exists a b, In (a, b) l /\ a <= y <= b) /\
    (forall i j a b c d y, nth_error l i = Some (a, b) -> nth_error l j = Some (c, d) -> a < y < b -> c < y < d -> i = j).
Proof.
  intros s parts. induction parts as [ | T parts IH]; intros Pos Ms Ap.
  - exists []. cbn. split; [ reflexivity | ]. split; [ intros a b [] | ]. split; [ intros T y [] | ]. intros i j a b c d y E. destruct i; discriminate E.
  - destruct IH as (l & Sum & Src & Cov & Apl).
    { intros U J. apply Pos. right. exact J. } { intros U J. apply Ms. right. exact J. }
    { intros i j U V z Ei Ej O1 O2. assert (X : Datatypes.S i = Datatypes.S j) by (eapply Ap; [ exact Ei | exact Ej | exact O1 | exact O2 ]). congruence. }
    destruct (section_of T s (Pos T (or_introl eq_refl)) (Ms T (or_introl eq_refl))) as [ (E & N) | (a & b & L & E & I & O) ].
    + exists l. split; [ cbn [tsum]; rewrite Sum, E; ring | ]. split; [ | split; [ | exact Apl ] ].
      * intros c d J. destruct (Src c d J) as (L & U & JU & HU). split; [ exact L | ]. exists U. split; [ right; exact JU | exact HU ].
      * intros U y [<- | J] Z; [ destruct (N y Z) | exact (Cov U y J Z) ].
    + exists ((a, b) :: l). split; [ cbn [tsum qsum2]; rewrite Sum, E; ring | ]. split; [ | split ].
      * intros c d [X | J]; [ injection X as <- <-; split; [ exact L | ]; exists T; split; [ left; reflexivity | auto ] | ]. destruct (Src c d J) as (L' & U & JU & HU). split; [ exact L' | ]. exists U. split; [ right; exact JU | exact HU ].
      * intros U y [<- | J] Z; [ exists a, b; split; [ left; reflexivity | apply I, Z ] | ]. destruct (Cov U y J Z) as (c & d & Jc & H). exists c, d. split; [ right; exact Jc | exact H ].
      * assert (Diff : forall k c d y, nth_error l k = Some (c, d) -> a < y < b -> c < y < d -> False).
        { intros k c d y Ek H1 H2. destruct (Src c d (nth_error_In _ _ Ek)) as (_ & U & JU & _ & OU). apply In_nth_error in JU. destruct JU as (j & Ej).
          assert (X : 0%nat = Datatypes.S j) by (eapply Ap; [ reflexivity | exact Ej | apply O, H1 | apply OU, H2 ]). discriminate X. }
        intros [ | i] [ | j] c d c' d' y Ei Ej H1 H2; cbn [nth_error] in *; [ reflexivity | | | f_equal; exact (Apl i j c d c' d' y Ei Ej H1 H2) ].
        -- injection Ei as <- <-. destruct (Diff j c' d' y Ej H1 H2).
        -- injection Ej as <- <-. destruct (Diff i c d y Ei H2 H1).
Qed.

Theorem areas_add : forall (S : tri2) (parts : list tri2), 0 < dbl S -> (forall T, In T parts -> 0 < dbl T) ->
  (forall T z, In T parts -> in2 T z -> in2 S z) -> (forall z, in2 S z -> exists T, In T parts /\ in2 T z) ->
  (forall i j T U z, nth_error parts i = Some T -> nth_error parts j = Some U -> open2 T z -> open2 U z -> i = j) ->
  tsum dbl parts == dbl S.
Proof.
  intros S parts DS Pos Ins Cov Ap.
  assert (Len : forall s, misses s S -> (forall T, In T parts -> misses s T) -> tsum (fun T => len T s) parts == len S s).
  { intros s MS Ms. destruct (sections s parts Pos Ms Ap) as (l & Sum & Src & Cl & Al). rewrite <- Sum.
    destruct (section_of S s DS MS) as [ (E & N) | (A & B & L & E & I & _) ]; rewrite E.
    - destruct l as [ | [a b] l]; [ reflexivity | exfalso ]. destruct (Src a b (or_introl eq_refl)) as (L & T & J & I & _). apply (N a). apply (Ins T _ J). apply I. lra.
    - apply (covers_sum (length l) l eq_refl A B L). split; [ | split; [ | exact Al ] ].
      + intros a b J. destruct (Src a b J) as (La & T & JT & IT & _). assert (A <= a <= B) by (apply I, (Ins T _ JT), IT; lra). assert (A <= b <= B) by (apply I, (Ins T _ JT), IT; lra). lra.
      + intros y Y. destruct (Cov (s, y) (proj2 (I y) Y)) as (T & JT & Z). exact (Cl T y JT Z). }
  set (all := flat_map abscissae (S :: parts)).
  assert (All : forall T, T = S \/ In T parts -> forall v, In v (abscissae T) -> In v all) by (intros T H v J; unfold all; apply in_flat_map; exists T; split; [ cbn [In]; destruct H as [-> | H]; auto | exact J ]).
  assert (Const : forall a b, a < b -> tsum (fun T => left_of T a) parts - left_of S a == tsum (fun T => left_of T b) parts - left_of S b).
  { apply (constant_between all (fun x => tsum (fun T => left_of T x) parts - left_of S x)). intros a b L N. set (s := (1 # 2) * (a + b)).
    assert (Mid : forall T, T = S \/ In T parts -> misses s T).
    { intros T H. pose proof (All T H) as V. destruct T as [ [p q] r]. cbn [misses abscissae In] in *. repeat split; intro E; [ apply (N (fst p)) | apply (N (fst q)) | apply (N (fst r)) ]; try (apply V; auto; fail); rewrite E; unfold s; lra. }
    assert (St : forall T, T = S \/ In T parts -> (b - a) * len T s == left_of T b - left_of T a) by (intros T H; apply left_strip; [ exact L | intros v J; apply N, (All T H v J) ]).
    pose proof (Len s (Mid S (or_introl eq_refl)) (fun T J => Mid T (or_intror J))) as E.
    assert (Sum : (b - a) * tsum (fun T => len T s) parts == tsum (fun T => left_of T b) parts - tsum (fun T => left_of T a) parts).
    { clear - St. induction parts as [ | T parts IH]; cbn [tsum]; [ ring | ]. pose proof (St T (or_intror (or_introl eq_refl))) as E. rewrite Qmult_plus_distr_r, E, IH; [ ring | ]. intros U [-> | J]; apply St; [ left; reflexivity | right; right; exact J ]. }
    pose proof (St S (or_introl eq_refl)) as ES. rewrite E in Sum. lra. }
  assert (Lo : exists x, forall v, In v all -> x <= v).
  { clear. induction all as [ | v l (x & IH)]; [ exists 0; intros v [] | ]. exists (Qmin v x). pose proof (Q.le_min_l v x). pose proof (Q.le_min_r v x). intros w [<- | J]; [ assumption | specialize (IH w J); lra ]. }
  assert (Hi : exists x, forall v, In v all -> v <= x).
  { clear. induction all as [ | v l (x & IH)]; [ exists 0; intros v [] | ]. exists (Qmax v x). pose proof (Q.le_max_l v x). pose proof (Q.le_max_r v x). intros w [<- | J]; [ assumption | specialize (IH w J); lra ]. }
  destruct Lo as (x & Lo), Hi as (y & Hi).
  assert (Lxy : x < y + 1). { destruct S as [ [p q] r]. assert (J : In (fst p) all) by (apply (All (p, q, r) (or_introl eq_refl)); left; reflexivity). specialize (Lo _ J). specialize (Hi _ J). lra. }
  specialize (Const x (y + 1) Lxy).
  assert (Z : forall l, (forall T, In T l -> In T parts) -> tsum (fun T => left_of T x) l == 0 /\ tsum (fun T => left_of T (y + 1)) l == (1 # 2) * tsum dbl l).
  { induction l as [ | T l IH]; intro H; cbn [tsum]; [ split; reflexivity | ]. destruct IH as (I1 & I2); [ intros U J; apply H; right; exact J | ]. pose proof (All T (or_intror (H T (or_introl eq_refl)))) as V.
    rewrite I1, I2, left_start, left_end; [ split; ring | intros v J; specialize (Hi v (V v J)); lra | intros v J; exact (Lo v (V v J)) ]. }
  destruct (Z parts (fun T J => J)) as (Z1 & Z2). rewrite Z1, Z2 in Const. pose proof (All S (or_introl eq_refl)) as V.
  rewrite (left_start S x), (left_end S (y + 1)) in Const; [ lra | intros v J; specialize (Hi v (V v J)); lra | intros v J; exact (Lo v (V v J)) ].
Qed.
