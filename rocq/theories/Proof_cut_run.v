(** * Every run of Corefine cuts the faces into pieces that fit together *)
From Coq Require Import List Arith Bool QArith Lqa Lia.
From Verif Require Import Model_base Proof_base Model_geometry Model_soup Model_aabb Model_points Model_corefine Spec_candidates Spec_defects Spec_ffi Spec_corefine Spec_mix Spec_cut Spec_delaunay.
From Verif Require Import Proof_candidates Proof_corefine_all Proof_corefine_rec Proof_mix_faces.
From Verif Require Import Proof_fan Proof_extreme Proof_hull Proof_ffi_result Proof_cells Proof_outline Proof_cut Proof_cut_faces Proof_cut_pre.
Import ListNotations.
Local Open Scope nat_scope.

Lemma perm_turned : forall {A} (t u : A * A * A), (let '(x, y, z) := t in NoDup [x; y; z]) -> (forall p, has_point t p <-> has_point u p) -> turned t u \/ turned_over t u.
Proof.
  intros A [ [x y] z] [ [x' y'] z'] Nd H.
  assert (N : x <> y /\ y <> z /\ x <> z).
  { inversion Nd as [ | ? ? N1 N2]; subst. inversion N2 as [ | ? ? N3 _]; subst. cbn in N1, N3. intuition congruence. }
  destruct N as (Nxy & Nyz & Nxz). cbn in H.
  pose proof (proj1 (H x) (or_introl eq_refl)) as Hx. pose proof (proj1 (H y) (or_intror (or_introl eq_refl))) as Hy. pose proof (proj1 (H z) (or_intror (or_intror eq_refl))) as Hz.
  clear H. destruct Hx as [-> | [-> | ->] ]; destruct Hy as [-> | [-> | ->] ]; try congruence; destruct Hz as [-> | [-> | ->] ]; try congruence; cbn; auto.
Qed.
Lemma outline_sym : forall {P} (coords : P -> vec3) pts T U ids, outline coords pts T U ids -> outline coords pts U T ids.
Proof.
  intros P coords pts T U ids [A B C D E]. split; auto.
  - intros id J. destruct (B id J) as (p & X & V). exists p. split; [ exact X | apply vertex_sym, V ].
  - intros x V. apply C, vertex_sym, V.
  - intros i j p q N X Y. apply side_swap. eapply E; eassumption.
Qed.
Lemma Forall2_in_l : forall {A B} (R : A -> B -> Prop) l l' x, Forall2 R l l' -> In x l -> exists y, In y l' /\ R x y.
Proof. intros A B R l l' x F. induction F as [ | a b l l' H F IH]; intros J; [ destruct J | ]. destruct J as [<- | J]; [ exists b; cbn; auto | destruct (IH J) as (y & Y1 & Y2); exists y; cbn; auto ]. Qed.
Lemma Forall2_in_r : forall {A B} (R : A -> B -> Prop) l l' y, Forall2 R l l' -> In y l' -> exists x, In x l /\ R x y.
Proof. intros A B R l l' y F. induction F as [ | a b l l' H F IH]; intros J; [ destruct J | ]. destruct J as [<- | J]; [ exists a; cbn; auto | destruct (IH J) as (x & Y1 & Y2); exists x; cbn; auto ]. Qed.
Lemma pick_rel : forall {A B} (R : A -> B -> Prop) (t : A * A * A) (f : B * B * B) m,
  (let '(x, y, z) := t in let '(a, b, c) := f in R x a /\ R y b /\ R z c) -> Forall2 R (pick m t) (pick m f).
Proof. intros A B R [ [x y] z] [ [a b] c] [ [ [ | ] [ | ] ] [ | ] ] (H1 & H2 & H3); cbn; repeat constructor; assumption. Qed.

(** The ids of the corners of a face of a triangulation. *)
Definition hcorners {P} (vs : list (P * nat)) (h : nat * nat * nat) (f : face) : Prop :=
  let at_ k a := exists p, nth_error vs k = Some (p, a) in
  let '(i, j, k) := h in let '(a, b, c) := f in at_ i a /\ at_ j b /\ at_ k c.
Lemma tri_faces_named : forall {P} (cdt_faces : triangulation P -> list (nat * nat * nat)) (coords : P -> vec3) t parts,
  Forall2 (has_corners (map (fun v => coords (fst v)) (t_vertices t))) (cdt_faces t) parts ->
  exists new, tri_faces cdt_faces t = Ok new /\ Forall2 (hcorners (t_vertices t)) (cdt_faces t) new.
Proof.
  intros P cdt_faces coords t parts H. unfold tri_faces.
  assert (G : forall fs0, exists new, foldM (fun fs h => let '(i, j, k) := h in
    match nth_error (t_vertices t) i, nth_error (t_vertices t) j, nth_error (t_vertices t) k with
    | Some (_, a), Some (_, b), Some (_, c) => Ok (fs ++ [(a, b, c)])
    | _, _, _ => UB
    end) fs0 (cdt_faces t) = Ok (fs0 ++ new) /\ Forall2 (hcorners (t_vertices t)) (cdt_faces t) new).
  { induction H as [ | [ [i j] k] [ [p q] r] hs parts (A & B & C) _ IH]; intro fs0.
    - exists []. cbn. rewrite app_nil_r. auto.
    - cbn [foldM]. rewrite nth_error_map in A, B, C.
      destruct (nth_error (t_vertices t) i) as [ [p' a] | ] eqn:E1; [ | discriminate ]. destruct (nth_error (t_vertices t) j) as [ [q' b] | ] eqn:E2; [ | discriminate ].
      destruct (nth_error (t_vertices t) k) as [ [r' c] | ] eqn:E3; [ | discriminate ].
      cbn [bind]. destruct (IH (fs0 ++ [(a, b, c)])) as (new & F & M). exists ((a, b, c) :: new).
      split; [ rewrite F, <- app_assoc; reflexivity | ]. constructor; [ | exact M ]. cbn. rewrite E1, E2, E3. eauto 10. }
  destruct (G []) as (new & F & R). exists new. auto.
Qed.

Section Run.
  Context {P D : Type}.
  Variable coords : P -> vec3.
  Hypothesis Hinj : forall p q, same_point (coords p) (coords q) -> p = q.
  Variable cdt_faces : triangulation P -> list (nat * nat * nat).
  Variables left right : soup P D.
  Variable cf : corefined P.
  Hypothesis Hcdt : cdt_constrained coords cdt_faces cf.
  Notation pts := (cf_points cf).
  Definition mesh_ (s : bool) : soup P D := if s then left else right.
  Definition ids_ (s : bool) : list nat := if s then cf_left_ids cf else cf_right_ids cf.
  Definition tags_ (s : bool) : list face_tag := if s then cf_left_tags cf else cf_right_tags cf.
  Definition tris_ (s : bool) : list (nat * triangulation P) := if s then cf_left_tris cf else cf_right_tris cf.
  Hypothesis Hproper : forall s, proper coords (mesh_ s).
  Hypothesis Hsimp : forall s, simplicial coords (mesh_ s).
  Hypothesis Htwins : forall s, no_twins (mesh_ s).
  Variable o : nat -> nat -> list nat.
  Definition outl_ (s : bool) : nat -> nat -> list nat := if s then o else fun R L => o L R.
  Hypothesis Hout : forall L R t u, face_corners left L t -> face_corners right R u ->
    nth_error (cf_left_tags cf) L = Some UNKNOWN -> nth_error (cf_right_tags cf) R = Some UNKNOWN ->
    outline coords pts (triangle_of coords t) (triangle_of coords u) (o L R).
  Hypothesis Htag : forall L R, o L R <> [] -> nth_error (cf_left_tags cf) L = Some UNKNOWN /\ nth_error (cf_right_tags cf) R = Some UNKNOWN.
  Hypothesis Hrecv : forall s, receives (mesh_ s) (ids_ s) pts (tris_ s) (outl_ s).
  Hypothesis Hlen : forall s, length (ids_ s) = length (points (mesh_ s)).
  Hypothesis Hids : forall s v p i, nth_error (points (mesh_ s)) v = Some p -> nth_error (ids_ s) v = Some i -> nth_error pts i = Some p.
  Hypothesis Htl : forall s, length (tags_ s) = num_faces (mesh_ s).
  Hypothesis Hrt : forall s F t, face_corners (mesh_ s) F t -> exists tag, nth_error (tags_ s) F = Some tag /\ right_tag (mesh_ (negb s)) t tag.
  Hypothesis Huse : forall i, in_use left right cf i -> exists p, nth_error pts i = Some p.
  Hypothesis Hone : forall i j p q, in_use left right cf i -> in_use left right cf j ->
    nth_error pts i = Some p -> nth_error pts j = Some q -> same_point (coords p) (coords q) -> i = j.

  Definition pos_ (i : nat) : vec3 := match nth_error pts i with Some p => coords p | None => (0, 0, 0)%Q end.
  Definition fc_ (s : bool) (F : nat) (f : nat * nat * nat) : Prop := face_points (mesh_ s) (ids_ s) F f.
  Definition unk_ (s : bool) (F : nat) : Prop := nth_error (tags_ s) F = Some UNKNOWN.
  Definition tiles_ (s : bool) (F : nat) : list face := match get_faces cdt_faces (mesh_ s) F (tris_ s) (ids_ s) with Ok l => l | _ => [] end.
  Notation tri := (triangle_of pos_).
  Notation vert := (vert fc_ outl_).

  (** ** Ids and points *)
  Lemma pos_at : forall i p, nth_error pts i = Some p -> pos_ i = coords p.
  Proof. intros i p E. unfold pos_. rewrite E. reflexivity. Qed.
  Lemma tri_at : forall f t, at_face pts f = Some t -> tri f = triangle_of coords t.
  Proof.
    intros [ [a b] c] t. unfold at_face. destruct (nth_error pts a) eqn:A; [ | discriminate ]. destruct (nth_error pts b) eqn:B; [ | discriminate ]. destruct (nth_error pts c) eqn:C; [ | discriminate ].
    intro H. injection H as <-. cbn. rewrite (pos_at _ _ A), (pos_at _ _ B), (pos_at _ _ C). reflexivity.
  Qed.
  Lemma at_rel : forall f t, at_face pts f = Some t -> let '(x, y, z) := t in let '(a, b, c) := f in nth_error pts a = Some x /\ nth_error pts b = Some y /\ nth_error pts c = Some z.
  Proof.
    intros [ [a b] c] [ [x y] z]. unfold at_face. destruct (nth_error pts a) eqn:A; [ | discriminate ]. destruct (nth_error pts b) eqn:B; [ | discriminate ]. destruct (nth_error pts c) eqn:C; [ | discriminate ].
    intro H. injection H as -> -> ->. auto.
  Qed.
  Lemma corners_of : forall s F f, fc_ s F f -> exists t, face_corners (mesh_ s) F t /\ at_face pts f = Some t.
  Proof.
    intros s F f (v0 & v1 & v2 & a & b & c & Ef & A & B & C & ->).
    assert (G : forall v i, nth_error (ids_ s) v = Some i -> exists p, nth_error (points (mesh_ s)) v = Some p /\ nth_error pts i = Some p).
    { intros v i E. destruct (nth_error (points (mesh_ s)) v) as [p | ] eqn:X; [ exists p; split; [ reflexivity | exact (Hids s v p i X E) ] | ].
      apply nth_error_None in X. assert (v < length (ids_ s)) by (apply nth_error_Some; congruence). rewrite Hlen in H. lia. }
    destruct (G _ _ A) as (p & Ap & Pa), (G _ _ B) as (q & Bq & Pb), (G _ _ C) as (r & Cr & Pc). exists (p, q, r). split; [ exists v0, v1, v2, p, q, r; auto 8 | ].
    unfold at_face. rewrite Pa, Pb, Pc. reflexivity.
  Qed.
  Lemma fc_of : forall s F t, face_corners (mesh_ s) F t -> exists f, fc_ s F f /\ at_face pts f = Some t.
  Proof.
    intros s F t (v0 & v1 & v2 & p & q & r & Ef & A & B & C & ->).
    assert (G : forall v x, nth_error (points (mesh_ s)) v = Some x -> exists i, nth_error (ids_ s) v = Some i /\ nth_error pts i = Some x).
    { intros v x X. destruct (nth_error (ids_ s) v) as [i | ] eqn:E; [ exists i; split; [ reflexivity | exact (Hids s v x i X E) ] | ].
      apply nth_error_None in E. assert (v < length (points (mesh_ s))) by (apply nth_error_Some; congruence). rewrite <- Hlen in H. lia. }
    destruct (G _ _ A) as (a & Ia & Pa), (G _ _ B) as (b & Ib & Pb), (G _ _ C) as (c & Ic & Pc). exists (a, b, c). split; [ exists v0, v1, v2, a, b, c; auto 8 | ].
    unfold at_face. rewrite Pa, Pb, Pc. reflexivity.
  Qed.
  Lemma face_exists : forall s F, F < num_faces (mesh_ s) -> exists f, fc_ s F f.
  Proof. intros s F L. destruct (Hproper s F L) as (t & C & _). destruct (fc_of s F t C) as (f & H & _). eauto. Qed.

  Lemma use_corner : forall s F f v, fc_ s F f -> has_vertex f v -> in_use left right cf v.
  Proof.
    intros s F [ [a b] c] v H Hv. assert (J : In v [a; b; c]) by (cbn in Hv; cbn; intuition).
    destruct s; [ left | right; left ]; exists F, a, b, c; (split; [ exact H | exact J ]).
  Qed.
  Lemma use_vert : forall s F v, vert s F v -> in_use left right cf v.
  Proof.
    intros s F v [(t & H & Hv) | (G & J)]; [ exact (use_corner s F t v H Hv) | ].
    destruct (Hrecv s) as (_ & Hex & Hrec). destruct (proj2 (Hex F)) as (t & Jt); [ exists G; intro E; rewrite E in J; destruct J | ].
    destruct (Hrec F t Jt) as (_ & Hv & _). destruct (proj2 (Hv v) (or_intror (ex_intro _ G J))) as (p & Jp).
    right. right. exists F, t, p. split; [ destruct s; auto | exact Jp ].
  Qed.
  Lemma one : forall i j p, in_use left right cf i -> in_use left right cf j -> nth_error pts i = Some p -> nth_error pts j = Some p -> i = j.
  Proof. intros i j p Ui Uj Ei Ej. exact (Hone i j p p Ui Uj Ei Ej (same_refl _)). Qed.

  (** The same points, the same ids. *)
  Lemma ids_points : forall (is js : list nat) ps qs, Forall2 (fun x a => nth_error pts a = Some x) ps is -> Forall2 (fun x a => nth_error pts a = Some x) qs js ->
    (forall v, In v is -> in_use left right cf v) -> (forall v, In v js -> in_use left right cf v) ->
    (forall p, In p ps -> In p qs) -> forall v, In v is -> In v js.
  Proof.
    intros is js ps qs F G Ui Uj H v J. destruct (Forall2_in_r _ _ _ _ F J) as (p & Jp & E). destruct (Forall2_in_l _ _ _ _ G (H p Jp)) as (w & Jw & E').
    rewrite (one v w p (Ui v J) (Uj w Jw) E E'). exact Jw.
  Qed.
  Lemma pick_use : forall s F f m v, fc_ s F f -> In v (pick m f) -> in_use left right cf v.
  Proof. intros s F f m v H J. exact (use_corner s F f v H (pick_has m f v J)). Qed.

  Lemma run_nd : forall s F f, fc_ s F f -> nondegenerate (tri f).
  Proof. intros s F f H. destruct (corners_of s F f H) as (t & C & A). rewrite (tri_at _ _ A). exact (proper_corners coords _ _ _ (Hproper s) C). Qed.
  Lemma run_fun : forall s F f g, fc_ s F f -> fc_ s F g -> f = g.
  Proof. intros s F f g. apply Proof_mix_faces.face_points_fun. Qed.
  Lemma run_simp : forall s F G f g m k x, fc_ s F f -> fc_ s G g -> in_feature (tri f) m x -> in_feature (tri g) k x -> forall v, In v (pick m f) <-> In v (pick k g).
  Proof.
    intros s F G f g m k x H K Fx Gx. destruct (corners_of s F f H) as (t & C & A). destruct (corners_of s G g K) as (u & C' & A'). rewrite (tri_at _ _ A) in Fx. rewrite (tri_at _ _ A') in Gx.
    pose proof (Hsimp s F G t u m k x C C' Fx Gx) as E. pose proof (pick_rel (fun x a => nth_error pts a = Some x) t f m (at_rel _ _ A)) as R. pose proof (pick_rel (fun x a => nth_error pts a = Some x) u g k (at_rel _ _ A')) as R'.
    intro v. split; [ apply (ids_points _ _ _ _ R R') | apply (ids_points _ _ _ _ R' R) ]; try (intros ? Jp_; eapply pick_use; [ | exact Jp_ ]; eassumption); intros p; apply E.
  Qed.
  Lemma has_pick3 : forall {A} (t : A * A * A) p, has_point t p <-> In p (pick full t).
  Proof. intros A [ [x y] z] p. cbn. intuition. Qed.
  Lemma alike_points : forall s F f s' G g t u, fc_ s F f -> fc_ s' G g -> at_face pts f = Some t -> at_face pts g = Some u -> (alike f g <-> forall p, has_point t p <-> has_point u p).
  Proof.
    intros s F f s' G g t u H K A A'. pose proof (pick_rel (fun x a => nth_error pts a = Some x) t f full (at_rel _ _ A)) as R. pose proof (pick_rel (fun x a => nth_error pts a = Some x) u g full (at_rel _ _ A')) as R'.
    assert (X : forall s F f s' G g t u, fc_ s F f -> fc_ s' G g -> Forall2 (fun x a => nth_error pts a = Some x) (pick full t) (pick full f) -> Forall2 (fun x a => nth_error pts a = Some x) (pick full u) (pick full g) ->
      ((forall v, has_vertex f v -> has_vertex g v) -> forall p, has_point t p -> has_point u p) /\ ((forall p, has_point t p -> has_point u p) -> forall v, has_vertex f v -> has_vertex g v)).
    { clear - Hone. intros s F f s' G g t u H K R R'. split.
      - intros E p Hp. apply has_pick3 in Hp. destruct (Forall2_in_l _ _ _ _ R Hp) as (v & Jv & Ev). apply has_pick in Jv. apply E, has_pick in Jv. destruct (Forall2_in_r _ _ _ _ R' Jv) as (q & Jq & Eq).
        rewrite Ev in Eq. injection Eq as <-. apply has_pick3, Jq.
      - intros E v Hv. apply has_pick. apply has_pick in Hv. revert v Hv. apply (ids_points _ _ _ _ R R'); try (intros ? Jp_; eapply pick_use; [ | exact Jp_ ]; eassumption).
        intros p Jp. apply has_pick3, E, has_pick3, Jp. }
    destruct (X s F f s' G g t u H K R R') as [X1 X2]. destruct (X s' G g s F f u t K H R' R) as [Y1 Y2].
    split; intros E z; (split; [ apply X1 || apply X2 | apply Y1 || apply Y2 ]); intros w; apply E.
  Qed.
  Lemma run_twin : forall s F G f g, fc_ s F f -> fc_ s G g -> alike f g -> F = G.
  Proof.
    intros s F G f g H K E. destruct (corners_of s F f H) as ([ [x y] z] & C & A). destruct (corners_of s G g K) as ([ [x' y'] z'] & C' & A').
    pose proof (proj1 (alike_points s F f s G g _ _ H K A A') E) as E'. apply (Htwins s F G _ _ _ _ _ _ C C'). intro p. specialize (E' p). rewrite !has_pick3 in E'. exact E'.
  Qed.
  Lemma turned_points : forall {A} (t u : A * A * A), turned t u \/ turned_over t u -> forall p, has_point t p <-> has_point u p.
  Proof. intros A [ [x y] z] u [ [-> | [-> | ->] ] | [-> | [-> | ->] ] ] p; cbn; tauto. Qed.
  Lemma run_tag : forall s F f, fc_ s F f -> unk_ s F \/ (~ unk_ s F /\ exists G g, fc_ (negb s) G g /\ alike f g).
  Proof.
    intros s F f H. destruct (corners_of s F f H) as (t & C & A). destruct (Hrt s F t C) as (tag & E & R). unfold unk_. rewrite E.
    assert (Y : (exists j u, face_corners (mesh_ (negb s)) j u /\ (turned t u \/ turned_over t u)) -> exists G g, fc_ (negb s) G g /\ alike f g).
    { intros (j & u & Cu & Tu). destruct (fc_of _ j u Cu) as (g & K & A'). exists j, g. split; [ exact K | ]. apply (proj2 (alike_points s F f (negb s) j g t u H K A A')). exact (turned_points t u Tu). }
    destruct tag; cbn in R; [ left; reflexivity | right; split; [ discriminate | ] ..]; try (destruct R); apply Y.
    - destruct H0 as (u & Cu & Tu). eauto 6.
    - destruct H0 as (u & Cu & Tu). eauto 6.
  Qed.
  Lemma run_unk : forall s F f G g, fc_ s F f -> unk_ s F -> fc_ (negb s) G g -> ~ alike f g.
  Proof.
    intros s F f G g H U K E. destruct (corners_of s F f H) as (t & C & A). destruct (corners_of _ G g K) as (u & C' & A'). destruct (Hrt s F t C) as (tag & Et & R). unfold unk_ in U. rewrite U in Et. injection Et as <-.
    pose proof (proj1 (alike_points s F f (negb s) G g t u H K A A') E) as E'.
    destruct (R G u C') as [N1 N2]. assert (Nd : let '(x, y, z) := t in NoDup [x; y; z]).
    { destruct t as [ [x y] z]. pose proof (proper_corners coords _ _ _ (Hproper s) C) as N. destruct (Proof_ffi_edge.distinct_corners _ _ _ N) as (D1 & D2 & D3).
      repeat constructor; cbn; intuition; subst; try (apply D1, same_refl); try (apply D2, same_refl); try (apply D3, same_refl). }
    destruct (perm_turned t u Nd E') as [T | T]; auto.
  Qed.
  Lemma run_tags : forall s F G, outl_ s F G <> [] -> unk_ s F /\ unk_ (negb s) G.
  Proof. intros [ | ] F G H; unfold outl_, unk_, tags_ in *; cbn [negb]; apply Htag in H; tauto. Qed.
  Lemma run_some : forall s F G, outl_ s F G <> [] -> exists f g, fc_ s F f /\ unk_ s F /\ fc_ (negb s) G g /\ unk_ (negb s) G.
  Proof.
    intros s F G H. destruct (run_tags s F G H) as [U U']. 
    destruct (face_exists s F) as (f & Hf); [ rewrite <- Htl; apply nth_error_Some; unfold unk_ in U; congruence | ].
    destruct (face_exists (negb s) G) as (g & Hg); [ rewrite <- Htl; apply nth_error_Some; unfold unk_ in U'; congruence | ]. eauto 8.
  Qed.
  Lemma run_sym : forall s F G, outl_ (negb s) G F = outl_ s F G.
  Proof. intros [ | ] F G; reflexivity. Qed.
  Lemma run_outline : forall s F G f g, fc_ s F f -> fc_ (negb s) G g -> unk_ s F -> unk_ (negb s) G -> outline coords pts (tri f) (tri g) (outl_ s F G).
  Proof.
    intros s F G f g H K U U'. destruct (corners_of s F f H) as (t & C & A). destruct (corners_of _ G g K) as (u & C' & A'). rewrite (tri_at _ _ A), (tri_at _ _ A').
    destruct s; cbn [negb] in *; [ exact (Hout F G t u C C' U U') | apply outline_sym; exact (Hout G F u t C' C U' U) ].
  Qed.
  Lemma run_nodup : forall s F G, NoDup (outl_ s F G).
  Proof.
    intros s F G. destruct (outl_ s F G) as [ | i l] eqn:E; [ constructor | ]. destruct (run_some s F G) as (f & g & H & U & K & U'); [ congruence | ].
    rewrite <- E. exact (ol_nodup _ _ _ _ _ (run_outline s F G f g H K U U')).
  Qed.
  Lemma run_point : forall s F v, vert s F v -> exists p, nth_error pts v = Some p /\ pos_ v = coords p.
  Proof. intros s F v V. destruct (Huse v (use_vert s F v V)) as (p & E). exists p. split; [ exact E | exact (pos_at _ _ E) ]. Qed.
  Lemma run_inj : forall s F v s' F' v', vert s F v -> vert s' F' v' -> same_point (pos_ v) (pos_ v') -> v = v'.
  Proof.
    intros s F v s' F' v' V V' S. destruct (run_point _ _ _ V) as (p & E & X). destruct (run_point _ _ _ V') as (q & E' & X'). rewrite X, X' in S.
    exact (Hone v v' p q (use_vert _ _ _ V) (use_vert _ _ _ V') E E' S).
  Qed.
  Lemma run_vertex : forall s F G f g v, fc_ s F f -> fc_ (negb s) G g -> In v (outl_ s F G) -> is_vertex (tri f) (tri g) (pos_ v).
  Proof.
    intros s F G f g v H K J. destruct (run_tags s F G) as [U U']; [ intro E; rewrite E in J; destruct J | ].
    destruct (ol_vertex _ _ _ _ _ (run_outline s F G f g H K U U') v J) as (p & E & V). rewrite (pos_at _ _ E). exact V.
  Qed.
  Lemma run_all : forall s F G f g x, fc_ s F f -> fc_ (negb s) G g -> unk_ s F -> unk_ (negb s) G -> is_vertex (tri f) (tri g) x ->
    exists v, In v (outl_ s F G) /\ same_point x (pos_ v).
  Proof.
    intros s F G f g x H K U U' V. destruct (ol_all _ _ _ _ _ (run_outline s F G f g H K U U') x V) as (v & p & J & E & S). exists v. rewrite (pos_at _ _ E). auto.
  Qed.
  Lemma run_side : forall s F G f g i j, fc_ s F f -> fc_ (negb s) G g -> neighbours (outl_ s F G) i j -> is_side (tri f) (tri g) (pos_ i) (pos_ j).
  Proof.
    intros s F G f g i j H K N. destruct (neighbours_in _ _ _ N) as [Ji Jj]. destruct (run_tags s F G) as [U U']; [ intro E; rewrite E in Ji; destruct Ji | ].
    destruct (run_point s F i) as (p & Ep & Xp); [ right; eauto | ]. destruct (run_point s F j) as (q & Eq & Xq); [ right; eauto | ]. rewrite Xp, Xq.
    exact (ol_side _ _ _ _ _ (run_outline s F G f g H K U U') i j p q N Ep Eq).
  Qed.
  Lemma run_neighbours : forall s F G f g i j, fc_ s F f -> fc_ (negb s) G g -> In i (outl_ s F G) -> In j (outl_ s F G) -> i <> j ->
    is_side (tri f) (tri g) (pos_ i) (pos_ j) -> neighbours (outl_ s F G) i j \/ neighbours (outl_ s F G) j i.
  Proof.
    intros s F G f g i j H K Ji Jj N S. destruct (run_tags s F G) as [U U']; [ intro E; rewrite E in Ji; destruct Ji | ].
    destruct (run_point s F i) as (p & Ep & Xp); [ right; eauto | ]. destruct (run_point s F j) as (q & Eq & Xq); [ right; eauto | ]. rewrite Xp, Xq in S.
    exact (outline_neighbours coords pts (tri f) (tri g) (run_nd _ _ _ H) (outl_ s F G) (run_outline s F G f g H K U U') i j p q Ji Jj Ep Eq N S).
  Qed.

  (** ** Triangulations *)
  Lemma tri_exists : forall s F, (exists G, outl_ s F G <> []) <-> exists t, assoc_find Nat.eqb F (tris_ s) = Some t.
  Proof.
    intros s F. destruct (Hrecv s) as (_ & Hex & _). rewrite <- Hex. split.
    - intros (t & J). destruct (assoc_find Nat.eqb F (tris_ s)) as [t' | ] eqn:E; [ eauto | ]. exfalso. exact (assoc_find_none _ _ t E J).
    - intros (t & E). exists t. exact (assoc_find_in _ _ _ E).
  Qed.
  Lemma vertices : forall s F f t, fc_ s F f -> assoc_find Nat.eqb F (tris_ s) = Some t ->
    let vs := map (fun v => coords (fst v)) (t_vertices t) in
    (forall h p v, nth_error (t_vertices t) h = Some (p, v) -> vert s F v /\ pos_ v = coords p) /\
    (forall v, vert s F v -> exists h p, nth_error (t_vertices t) h = Some (p, v)) /\
    (forall h k p q v, nth_error (t_vertices t) h = Some (p, v) -> nth_error (t_vertices t) k = Some (q, v) -> h = k) /\
    (let '(a, b, c) := tri f in good_vertices vs a b c) /\ compatible vs (t_constraints t).
  Proof.
    intros s F f t H Ea vs. apply assoc_find_in in Ea. destruct (Hrecv s) as (_ & Hex & Hrec). destruct (Hrec F t Ea) as (Hj & Hv & Hp & N1 & N2 & Hc & a & b & c & rest & Fp & Es).
    pose proof (run_fun s F _ _ H Fp) as X. subst f.
    assert (V1 : forall h p v, nth_error (t_vertices t) h = Some (p, v) -> vert s F v /\ pos_ v = coords p).
    { intros h p v E. apply nth_error_In in E. split; [ | exact (pos_at _ _ (Hp _ _ E)) ]. destruct (proj1 (Hv v) (ex_intro _ p E)) as [(a' & b' & c' & Fp' & J) | (G & J)]; [ left | right; eauto ].
      exists (a', b', c'). split; [ exact Fp' | ]. cbn in J. cbn. intuition. }
    assert (V2 : forall v, vert s F v -> exists h p, nth_error (t_vertices t) h = Some (p, v)).
    { intros v V. assert (exists p, In (p, v) (t_vertices t)) as (p & J).
      { apply Hv. destruct V as [([ [a' b'] c'] & Fp' & J) | V]; [ left; exists a', b', c'; split; [ exact Fp' | cbn in J; cbn; intuition ] | right; exact V ]. }
      apply In_nth_error in J. destruct J as (h & J). eauto. }
    assert (V3 : forall h k p q v, nth_error (t_vertices t) h = Some (p, v) -> nth_error (t_vertices t) k = Some (q, v) -> h = k).
    { intros h k p q v E E'. apply (proj1 (NoDup_nth_error _) N1); [ rewrite map_length; apply nth_error_Some; congruence | rewrite !nth_error_map, E, E'; reflexivity ]. }
    assert (At : forall h x, nth_error vs h = Some x -> exists p v, nth_error (t_vertices t) h = Some (p, v) /\ x = pos_ v /\ vert s F v).
    { intros h x E. unfold vs in E. rewrite nth_error_map in E. destruct (nth_error (t_vertices t) h) as [ [p v] | ] eqn:Eh; [ | discriminate ]. cbn in E. injection E as <-. destruct (V1 _ _ _ Eh) as [W W']. exists p, v. auto. }
    split; [ exact V1 | ]. split; [ exact V2 | ]. split; [ exact V3 | ]. split.
    - cbn [triangle_of]. split; [ | split; [ exact (run_nd s F _ H) | split ] ].
      + destruct (t_vertices t) as [ | [p0 i0] [ | [p1 i1] [ | [p2 i2] l] ] ] eqn:Ev; try discriminate. cbn in Es. injection Es as -> -> -> _. 
        exists (map (fun v => coords (fst v)) l). unfold vs. cbn [map fst]. rewrite (proj2 (V1 0 p0 a eq_refl)), (proj2 (V1 1 p1 b eq_refl)), (proj2 (V1 2 p2 c eq_refl)). reflexivity.
      + intros x J. apply In_nth_error in J. destruct J as (h & E). destruct (At h x E) as (p & v & _ & -> & V). destruct V as [(t' & H' & Hv') | (G & J)].
        * rewrite (run_fun _ _ _ _ H' H) in Hv'. exact (corner_inside pos_ (a, b, c) v Hv').
        * destruct (run_some s F G) as (f' & g & _ & _ & K & _); [ intro E'; rewrite E' in J; destruct J | ]. exact (proj1 (proj1 (run_vertex s F G _ g v H K J))).
      + intros i j x y E E' S. destruct (At i x E) as (p & v & Ev & -> & V). destruct (At j y E') as (q & w & Ew & -> & W). pose proof (run_inj _ _ _ _ _ _ V W S) as X. subst w. exact (V3 i j p q v Ev Ew).
    - assert (Hn : forall h k, In (h, k) (t_constraints t) -> exists p q i j G, nth_error (t_vertices t) h = Some (p, i) /\ nth_error (t_vertices t) k = Some (q, j) /\ (neighbours (outl_ s F G) i j \/ neighbours (outl_ s F G) j i)).
      { intros h k J. destruct (Hc h k J) as [L1 L2]. destruct (nth_error (t_vertices t) h) as [ [p i] | ] eqn:E1; [ | apply nth_error_None in E1; lia ]. destruct (nth_error (t_vertices t) k) as [ [q j] | ] eqn:E2; [ | apply nth_error_None in E2; lia ].
        destruct (proj1 (Hj i j)) as (G & N); [ exists h, k, p, q; auto | ]. exists p, q, i, j, G. auto. }
      assert (Ne : forall i j G, neighbours (outl_ s F G) i j \/ neighbours (outl_ s F G) j i -> i <> j).
      { intros i j G [N | N]; [ exact (neighbours_ne _ _ _ (run_nodup s F G) N) | intro X; symmetry in X; exact (neighbours_ne _ _ _ (run_nodup s F G) N X) ]. }
      split.
      + intros h k J. destruct (Hc h k J) as [L1 L2]. unfold vs. rewrite map_length. split; [ | auto ]. intros ->. destruct (Hn k k J) as (p & q & i & j & G & E1 & E2 & N). rewrite E1 in E2. injection E2 as _ ->. exact (Ne _ _ _ N eq_refl).
      + intros h k v p q x J Eh Ek Ev B. destruct (Hn h k J) as (p' & q' & i & j & G & E1 & E2 & N).
        destruct (At _ _ Eh) as (p1 & i1 & X1 & -> & _). destruct (At _ _ Ek) as (p2 & i2 & X2 & -> & _). destruct (At _ _ Ev) as (p3 & i3 & X3 & -> & V3').
        rewrite E1 in X1. injection X1 as _ <-. rewrite E2 in X2. injection X2 as _ <-. apply between_strictly in B. 
        pose proof (no_vertex pos_ fc_ unk_ outl_ run_nd run_fun run_simp run_some run_nodup run_vertex run_inj) as Nv.
        destruct N as [N | N]; [ exact (Nv s F G i j i3 N V3' B) | exact (Nv s F G j i i3 N V3' (between_swap _ _ _ B)) ].
      + intros h k h' k' p q p' q' x J J' Eh Ek Eh' Ek' B B'. destruct (Hn h k J) as (p0 & q0 & i & j & G & E1 & E2 & N). destruct (Hn h' k' J') as (p0' & q0' & i' & j' & G' & E1' & E2' & N').
        destruct (At _ _ Eh) as (p1 & i1 & X1 & -> & _). destruct (At _ _ Ek) as (p2 & i2 & X2 & -> & _). destruct (At _ _ Eh') as (p3 & i3 & X3 & -> & _). destruct (At _ _ Ek') as (p4 & i4 & X4 & -> & _).
        rewrite E1 in X1. injection X1 as _ <-. rewrite E2 in X2. injection X2 as _ <-. rewrite E1' in X3. injection X3 as _ <-. rewrite E2' in X4. injection X4 as _ <-.
        apply between_strictly in B. apply between_strictly in B'.
        pose proof (no_cross pos_ fc_ unk_ outl_ run_nd run_fun run_simp run_some run_nodup run_vertex run_side run_inj) as Nc.
        assert (Z : (i = i' /\ j = j') \/ (i = j' /\ j = i')).
        { destruct N as [N | N], N' as [N' | N'].
          - exact (Nc s F G G' i j i' j' x N N' B B').
          - destruct (Nc s F G G' i j j' i' x N N' B (between_swap _ _ _ B')) as [ [-> ->] | [-> ->] ]; auto.
          - destruct (Nc s F G G' j i i' j' x N N' (between_swap _ _ _ B) B') as [ [-> ->] | [-> ->] ]; auto.
          - destruct (Nc s F G G' j i j' i' x N N' (between_swap _ _ _ B) (between_swap _ _ _ B')) as [ [-> ->] | [-> ->] ]; auto. }
        destruct Z as [ [-> ->] | [-> ->] ]; [ left | right ]; split; eapply V3; eassumption.
  Qed.

  (** ** Pieces *)
  Lemma hcorners_tri : forall s F (t : triangulation P) h g, (forall h p v, nth_error (t_vertices t) h = Some (p, v) -> vert s F v /\ pos_ v = coords p) ->
    hcorners (t_vertices t) h g -> has_corners (map (fun v => coords (fst v)) (t_vertices t)) h (tri g).
  Proof.
    intros s F t [ [i j] k] [ [a b] c] V1 ((p & A) & (q & B) & (r & C)). cbn. rewrite !nth_error_map, A, B, C. cbn.
    rewrite (proj2 (V1 _ _ _ A)), (proj2 (V1 _ _ _ B)), (proj2 (V1 _ _ _ C)). auto.
  Qed.
  Lemma face_tiles : forall s F f, fc_ s F f -> get_faces cdt_faces (mesh_ s) F (tris_ s) (ids_ s) = Ok (tiles_ s F) /\
    ((assoc_find Nat.eqb F (tris_ s) = None /\ tiles_ s F = [f]) \/
     exists t, assoc_find Nat.eqb F (tris_ s) = Some t /\ Forall2 (hcorners (t_vertices t)) (cdt_faces t) (tiles_ s F) /\
       triangulates (tri f) (map (fun v => coords (fst v)) (t_vertices t)) (t_constraints t) (cdt_faces t)).
  Proof.
    intros s F f H. unfold tiles_, get_faces. destruct (assoc_find Nat.eqb F (tris_ s)) as [t | ] eqn:Ea.
    - destruct (vertices s F f t H Ea) as (_ & _ & _ & Gv & Cp).
      assert (Tg : triangulates (tri f) (map (fun v => coords (fst v)) (t_vertices t)) (t_constraints t) (cdt_faces t)).
      { destruct (tri f) as [ [a b] c]. refine (Hcdt F t _ a b c Gv Cp). apply assoc_find_in in Ea. destruct s; auto. }
      destruct (tg_tiles _ _ _ _ Tg) as (parts & F2 & _). destruct (tri_faces_named cdt_faces coords t parts F2) as (new & E & N). rewrite E. split; [ reflexivity | ]. right. exists t. auto.
    - rewrite (face_ids_ok _ _ _ _ H). cbn [bind]. split; [ reflexivity | ]. left. auto.
  Qed.
  Lemma hcorners_pick : forall (vs : list (P * nat)) h g m, hcorners vs h g -> Forall2 (fun i a => exists p, nth_error vs i = Some (p, a)) (pick m h) (pick m g).
  Proof. intros vs [ [i j] k] [ [a b] c] m H. apply pick_rel. exact H. Qed.

  Lemma run_tiles : forall s F f, fc_ s F f -> tiles (tri f) (map tri (tiles_ s F)).
  Proof.
    intros s F f H. destruct (face_tiles s F f H) as (_ & [(_ & ->) | (t & Ea & N & Tg)]); [ apply tiles_self, (run_nd s F f H) | ].
    destruct (vertices s F f t H Ea) as (V1 & _). destruct (tg_tiles _ _ _ _ Tg) as (parts & F2 & Ti). replace (map tri (tiles_ s F)) with parts; [ exact Ti | ].
    clear - N F2 V1. revert parts F2. induction N as [ | h g hs gs Hg N IH]; intros parts F2; inversion F2 as [ | ? T ? ts Hh F2']; subst; [ reflexivity | ]. cbn [map]. f_equal; [ | apply IH, F2' ].
    pose proof (hcorners_tri s F t h g V1 Hg) as Hc. destruct h as [ [i j] k], T as [ [x y] z], (tri g) as [ [x' y'] z']. cbn in Hh, Hc. destruct Hh as (A & B & C), Hc as (A' & B' & C'). congruence.
  Qed.
  Lemma run_single : forall s F f, fc_ s F f -> ~ unk_ s F -> tiles_ s F = [f].
  Proof.
    intros s F f H U. destruct (face_tiles s F f H) as (_ & [(_ & E) | (t & Ea & _)]); [ exact E | ]. destruct (proj2 (tri_exists s F) (ex_intro _ t Ea)) as (G & N). destruct (run_tags s F G N). contradiction.
  Qed.
  Lemma tile_face : forall s F k T, tile tiles_ s F k T -> exists f, fc_ s F f.
  Proof.
    intros s F k T HT. unfold tile, tiles_, get_faces in HT. destruct (assoc_find Nat.eqb F (tris_ s)) as [t | ] eqn:Ea.
    - destruct (proj2 (tri_exists s F) (ex_intro _ t Ea)) as (G & N). destruct (run_some s F G N) as (f & _ & H & _). eauto.
    - destruct (face_ids (mesh_ s) (ids_ s) F) as [g | e | ] eqn:E; cbn in HT; [ | destruct k; discriminate | destruct k; discriminate ]. destruct g as [ [a b] c].
      exists (a, b, c). apply Proof_corefine_side.face_ids_points. exact E.
  Qed.
  Lemma run_complex : forall s F k l T U m n x, tile tiles_ s F k T -> tile tiles_ s F l U -> in_feature (tri T) m x -> in_feature (tri U) n x ->
    forall v, In v (pick m T) <-> In v (pick n U).
  Proof.
    intros s F k l T U m n x HT HU Fm Fn.
    destruct (tile_face s F k T HT) as (f & H).
    destruct (face_tiles s F f H) as (_ & [(_ & E) | (t & Ea & N & Tg)]).
    - unfold tile in HT, HU. rewrite E in HT, HU. destruct k as [ | [ | k] ]; try discriminate. destruct l as [ | [ | l] ]; try discriminate. injection HT as <-. injection HU as <-.
      rewrite (feature_unique _ _ _ _ (run_nd s F f H) Fm Fn). tauto.
    - destruct (vertices s F f t H Ea) as (V1 & _ & V3 & _). unfold tile in HT, HU. apply nth_error_In in HT, HU.
      destruct (Forall2_in_r _ _ _ _ N HT) as (h & Jh & Ch). destruct (Forall2_in_r _ _ _ _ N HU) as (h' & Jh' & Ch').
      pose proof (tg_meet _ _ _ _ Tg h h' (tri T) (tri U) m n x Jh Jh' (hcorners_tri s F t h T V1 Ch) (hcorners_tri s F t h' U V1 Ch') Fm Fn) as M.
      pose proof (hcorners_pick _ _ _ m Ch) as R. pose proof (hcorners_pick _ _ _ n Ch') as R'.
      intro v. split; intro J.
      + destruct (Forall2_in_r _ _ _ _ R J) as (i & Ji & (p & E)). destruct (Forall2_in_l _ _ _ _ R' (proj1 (M i) Ji)) as (w & Jw & (q & E')). rewrite E in E'. injection E' as _ <-. exact Jw.
      + destruct (Forall2_in_r _ _ _ _ R' J) as (i & Ji & (p & E)). destruct (Forall2_in_l _ _ _ _ R (proj2 (M i) Ji)) as (w & Jw & (q & E')). rewrite E in E'. injection E' as _ <-. exact Jw.
  Qed.
  Lemma run_vert : forall s F k T v, tile tiles_ s F k T -> has_vertex T v -> vert s F v.
  Proof.
    intros s F k T v HT Hv. destruct (tile_face s F k T HT) as (f & H). destruct (face_tiles s F f H) as (_ & [(_ & E) | (t & Ea & N & Tg)]); unfold tile in HT; apply nth_error_In in HT.
    - rewrite E in HT. destruct HT as [<- | [ ] ]. left. eauto.
    - destruct (vertices s F f t H Ea) as (V1 & _). destruct (Forall2_in_r _ _ _ _ N HT) as (h & Jh & Ch). apply has_pick in Hv. destruct (Forall2_in_r _ _ _ _ (hcorners_pick _ _ _ full Ch) Hv) as (i & _ & (p & E)). exact (proj1 (V1 _ _ _ E)).
  Qed.
  Lemma handle_tile : forall s F (t : triangulation P) hs h i p v, Forall2 (hcorners (t_vertices t)) hs (tiles_ s F) -> In h hs -> has_vertex h i -> nth_error (t_vertices t) i = Some (p, v) ->
    exists g, In g (tiles_ s F) /\ hcorners (t_vertices t) h g /\ has_vertex g v.
  Proof.
    intros s F t hs h i p v N Jh Hi E. destruct (Forall2_in_l _ _ _ _ N Jh) as (g & Jg & Cg). exists g. split; [ exact Jg | ]. split; [ exact Cg | ]. apply has_pick in Hi.
    destruct (Forall2_in_l _ _ _ _ (hcorners_pick _ _ _ full Cg) Hi) as (w & Jw & (q & E')). rewrite E in E'. injection E' as _ <-. apply has_pick, Jw.
  Qed.
  Lemma run_used : forall s F v, vert s F v -> exists k T, tile tiles_ s F k T /\ has_vertex T v.
  Proof.
    intros s F v V. assert (exists f, fc_ s F f) as (f & H).
    { destruct V as [(f & H & _) | (G & J)]; [ eauto | ]. destruct (run_some s F G) as (f & _ & H & _); [ intro E; rewrite E in J; destruct J | eauto ]. }
    destruct (face_tiles s F f H) as (_ & [(En & E) | (t & Ea & N & Tg)]).
    - exists 0, f. unfold tile. rewrite E. split; [ reflexivity | ]. destruct V as [(f' & H' & Hv) | (G & J)]; [ rewrite (run_fun _ _ _ _ H H'); exact Hv | ].
      exfalso. destruct (proj1 (tri_exists s F)) as (t & Et); [ exists G; intro X; rewrite X in J; destruct J | congruence ].
    - destruct (vertices s F f t H Ea) as (_ & V2 & _). destruct (V2 v V) as (i & p & E). destruct (tg_vertex _ _ _ _ Tg i) as (h & Jh & Hi); [ rewrite map_length; apply nth_error_Some; congruence | ].
      destruct (handle_tile s F t _ h i p v N Jh Hi E) as (g & Jg & _ & Hg). apply In_nth_error in Jg. destruct Jg as (k & Ek). exists k, g. auto.
  Qed.
  Lemma run_edge : forall s F G i j, neighbours (outl_ s F G) i j -> exists k T, tile tiles_ s F k T /\ has_vertex T i /\ has_vertex T j.
  Proof.
    intros s F G i j Nb. destruct (neighbours_in _ _ _ Nb) as [Ji _]. assert (Ne : outl_ s F G <> []) by (intro E; rewrite E in Ji; destruct Ji).
    destruct (run_some s F G Ne) as (f & _ & H & _).
    destruct (face_tiles s F f H) as (_ & [(En & E) | (t & Ea & N & Tg)]).
    - exfalso. destruct (proj1 (tri_exists s F)) as (t & Et); [ eauto | congruence ].
    - destruct (Hrecv s) as (_ & _ & Hrec). destruct (Hrec F t (assoc_find_in _ _ _ Ea)) as (Hj & _).
      destruct (proj2 (Hj i j) (ex_intro _ G (or_introl Nb))) as (h & k & p & q & J & Eh & Ek).
      assert (exists x, In x (cdt_faces t) /\ has_vertex x h /\ has_vertex x k) as (x & Jx & Hh & Hk).
      { destruct J as [J | J]; destruct (tg_edge _ _ _ _ Tg _ _ J) as (x & X1 & X2 & X3); exists x; auto. }
      destruct (handle_tile s F t _ x h p i N Jx Hh Eh) as (g & Jg & Cg & Hg). apply has_pick in Hk.
      destruct (Forall2_in_l _ _ _ _ (hcorners_pick _ _ _ full Cg) Hk) as (w & Jw & (q' & E')). rewrite Ek in E'. injection E' as _ <-.
      apply In_nth_error in Jg. destruct Jg as (n & En). exists n, g. split; [ exact En | ]. split; [ exact Hg | apply has_pick, Jw ].
  Qed.

  Theorem run_cutting : cutting pos_ fc_ unk_ tiles_ outl_.
  Proof.
    split.
    - exact run_fun.
    - exact run_nd.
    - exact run_simp.
    - exact run_twin.
    - exact run_tag.
    - exact run_unk.
    - exact run_some.
    - exact run_sym.
    - exact run_nodup.
    - exact run_vertex.
    - exact run_all.
    - exact run_neighbours.
    - exact run_tiles.
    - exact run_single.
    - exact run_complex.
    - exact run_vert.
    - exact run_used.
    - exact run_edge.
    - exact run_inj.
  Qed.

  (** ** Edges and overlaps *)
  Lemma has_iff : forall s F f t a p, fc_ s F f -> at_face pts f = Some t -> in_use left right cf a -> nth_error pts a = Some p -> (has_vertex f a <-> has_point t p).
  Proof.
    intros s F f t a p H A U E. pose proof (pick_rel (fun x a => nth_error pts a = Some x) t f full (at_rel _ _ A)) as R. rewrite has_pick, has_pick3. split; intro J.
    - destruct (Forall2_in_r _ _ _ _ R J) as (q & Jq & Eq). rewrite E in Eq. injection Eq as <-. exact Jq.
    - destruct (Forall2_in_l _ _ _ _ R J) as (w & Jw & Ew). rewrite (one a w p U (pick_use s F f full w H Jw) E Ew). exact Jw.
  Qed.
  Lemma run_fair : (forall s, fair_edges (mesh_ s) (mesh_ (negb s))) -> forall s F f G g a b, fc_ s F f -> unk_ s F -> fc_ (negb s) G g -> a <> b ->
    has_vertex f a -> has_vertex f b -> has_vertex g a -> has_vertex g b ->
    exists G' g', fc_ (negb s) G' g' /\ unk_ (negb s) G' /\ has_vertex g' a /\ has_vertex g' b.
  Proof.
    intros Fair s F f G g a b H U K N Fa Fb Ga Gb. destruct (corners_of s F f H) as (t & C & A). destruct (corners_of _ G g K) as (u & C' & A').
    pose proof (use_corner s F f a H Fa) as Ua. pose proof (use_corner s F f b H Fb) as Ub.
    destruct (Huse a Ua) as (p & Ep). destruct (Huse b Ub) as (q & Eq).
    destruct (Fair s F t G u p q C) as (k & v & Cv & Nv & Vp & Vq).
    - intros (j & w & Cw & E). destruct (fc_of _ j w Cw) as (h & Kh & Ah). apply (run_unk s F f j h H U Kh). apply (alike_points s F f (negb s) j h t w H Kh A Ah). exact E.
    - exact C'.
    - intros ->. apply N. exact (one a b q Ua Ub Ep Eq).
    - exact (proj1 (has_iff s F f t a p H A Ua Ep) Fa).
    - exact (proj1 (has_iff s F f t b q H A Ub Eq) Fb).
    - exact (proj1 (has_iff _ G g u a p K A' Ua Ep) Ga).
    - exact (proj1 (has_iff _ G g u b q K A' Ub Eq) Gb).
    - destruct (fc_of _ k v Cv) as (h & Kh & Ah). exists k, h. split; [ exact Kh | ]. split.
      + destruct (run_tag (negb s) k h Kh) as [X | (_ & G' & g' & K' & E)]; [ exact X | exfalso ]. rewrite negb_involutive in K'. destruct (corners_of s G' g' K') as (w & Cw & Aw).
        apply Nv. exists G', w. split; [ exact Cw | ]. exact (proj1 (alike_points (negb s) k h s G' g' v w Kh K' Ah Aw) E).
      + split; [ exact (proj2 (has_iff _ k h v a p Kh Ah Ua Ep) Vp) | exact (proj2 (has_iff _ k h v b q Kh Ah Ub Eq) Vq) ].
  Qed.
  Lemma run_triangular : triangular_overlaps coords left right -> forall s F f G g x, fc_ s F f -> unk_ s F -> fc_ (negb s) G g -> unk_ (negb s) G ->
    in_feature (tri f) full x -> in_feature (tri g) full x -> zero3 (vcross (normal (tri f)) (normal (tri g))) ->
    exists y0 y1 y2, forall y, is_vertex (tri f) (tri g) y -> same_point y y0 \/ same_point y y1 \/ same_point y y2.
  Proof.
    intros Tr s F f G g x H _ K _ Fx Gx Z. destruct (corners_of s F f H) as (t & C & A). destruct (corners_of _ G g K) as (u & C' & A').
    rewrite (tri_at _ _ A), (tri_at _ _ A') in *. destruct s; cbn [negb mesh_] in *.
    - apply (Tr F G t u x C C' Fx Gx). exact Z.
    - destruct (Tr G F u t x C' C Gx Fx) as (y0 & y1 & y2 & Y).
      { change face_normal with normal. revert Z. generalize (normal (triangle_of coords t)), (normal (triangle_of coords u)). intros [ [a1 a2] a3] [ [b1 b2] b3] Z. coords. cbn [fst snd]. destruct Z as (Z1 & Z2 & Z3). repeat split; lra. }
      exists y0, y1, y2. intros y V. apply Y, vertex_sym, V.
  Qed.
  Lemma corner_not_under : forall h f v, has_vertex f v -> ~ under h (tri f) (pos_ v).
  Proof.
    intros h [ [a b] c] v Hv (g & e & A & B & C & L). unfold lifted in *. destruct Hv as [-> | [-> | ->] ]; lra.
  Qed.
  Lemma run_lowest : forall h, cdt_lowest h coords cdt_faces cf -> forall s F k T v y, tile tiles_ s F k T -> vert s F v -> in_feature (tri T) full y ->
    (forall G i j z, neighbours (outl_ s F G) i j -> strictly_between y (pos_ v) z -> ~ on_segment (pos_ i) (pos_ j) z) -> ~ under h (tri T) (pos_ v).
  Proof.
    intros h Lo s F k T v y HT V Fy See. destruct (tile_face s F k T HT) as (f & H). destruct (face_tiles s F f H) as (_ & [(En & E) | (t & Ea & N & _)]).
    - unfold tile in HT. rewrite E in HT. apply nth_error_In in HT. destruct HT as [<- | [ ] ]. apply corner_not_under. destruct V as [(f' & H' & Hv) | (G & J)]; [ rewrite (run_fun _ _ _ _ H H'); exact Hv | ].
      exfalso. destruct (proj1 (tri_exists s F)) as (t & Et); [ exists G; intro X; rewrite X in J; destruct J | congruence ].
    - destruct (vertices s F f t H Ea) as (V1 & V2 & _ & Gv & Cp). unfold tile in HT. apply nth_error_In in HT. destruct (Forall2_in_r _ _ _ _ N HT) as (hd & Jh & Ch). destruct (V2 v V) as (i & p & Ei).
      assert (Lt : lowest h (map (fun v => coords (fst v)) (t_vertices t)) (t_constraints t) (cdt_faces t)).
      { destruct (tri f) as [ [a b] c]. refine (Lo F t _ a b c Gv Cp). apply assoc_find_in in Ea. destruct s; auto. }
      apply (Lt hd (tri T) i (pos_ v) Jh (hcorners_tri s F t hd T V1 Ch)); [ rewrite nth_error_map, Ei; cbn; f_equal; symmetry; exact (proj2 (V1 _ _ _ Ei)) | ].
      exists y. split; [ exact Fy | ]. intros m n q r z J Eq Er B On. rewrite nth_error_map in Eq, Er.
      destruct (nth_error (t_vertices t) m) as [ [q' a] | ] eqn:Em; [ | discriminate ]. destruct (nth_error (t_vertices t) n) as [ [r' b] | ] eqn:En; [ | discriminate ]. cbn in Eq, Er. injection Eq as <-. injection Er as <-.
      apply between_strictly in B. destruct (Hrecv s) as (_ & _ & Hrec). destruct (Hrec F t (assoc_find_in _ _ _ Ea)) as (Hj & _).
      destruct (proj1 (Hj a b)) as (G & Nb); [ exists m, n, q', r'; auto | ]. rewrite <- (proj2 (V1 _ _ _ Em)), <- (proj2 (V1 _ _ _ En)) in On.
      destruct Nb as [Nb | Nb]; [ exact (See G a b z Nb B On) | ]. apply (See G b a z Nb B). destruct On as (w & W & X & Y & Z). exists (1 - w)%Q. split; [ lra | ]. rewrite X, Y, Z. repeat split; ring.
  Qed.
  Lemma run_ties : forall h, no_ties h coords left right -> forall s F f G g x a b c d k e, fc_ s F f -> unk_ s F -> fc_ (negb s) G g -> unk_ (negb s) G ->
    in_feature (tri f) full x -> in_feature (tri g) full x -> zero3 (vcross (normal (tri f)) (normal (tri g))) ->
    is_vertex (tri f) (tri g) a -> is_vertex (tri f) (tri g) b -> is_vertex (tri f) (tri g) c -> is_vertex (tri f) (tri g) d -> Spec_delaunay.apart a b c d ->
    ~ (lifted h k e a /\ lifted h k e b /\ lifted h k e c /\ lifted h k e d).
  Proof.
    intros h Ti s F f G g x a b c d k e H _ K _ Fx Gx Z Va Vb Vc Vd Ap. destruct (corners_of s F f H) as (t & C & A). destruct (corners_of _ G g K) as (u & C' & A').
    rewrite (tri_at _ _ A), (tri_at _ _ A') in *. destruct s; cbn [negb mesh_] in *.
    - exact (Ti F G t u x a b c d k e C C' Fx Gx Z Va Vb Vc Vd Ap).
    - apply vertex_sym in Va, Vb, Vc, Vd. refine (Ti G F u t x a b c d k e C' C Gx Fx _ Va Vb Vc Vd Ap).
      change face_normal with normal. revert Z. generalize (normal (triangle_of coords t)), (normal (triangle_of coords u)). intros [ [a1 a2] a3] [ [b1 b2] b3] Z. coords. cbn [fst snd]. destruct Z as (Z1 & Z2 & Z3). repeat split; lra.
  Qed.
  Lemma run_dec : forall s F, unk_ s F \/ ~ unk_ s F.
  Proof. intros s F. unfold unk_. destruct (nth_error (tags_ s) F) as [ [ | | | | ] | ]; (left; reflexivity) || (right; discriminate). Qed.
End Run.
