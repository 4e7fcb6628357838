(** * C36, C37: the intersection of two faces *)
From Coq Require Import List Arith Bool NArith ZArith QArith Lqa Lia Setoid Permutation.
From Verif Require Import Model_base Proof_base Model_geometry Model_region Model_points Model_ffi.
From Verif Require Import Spec_defects Spec_ffi Proof_extreme Proof_hull Proof_ffi_orient Proof_ffi_calls Proof_ffi_plane Proof_ffi_edge Proof_ffi_all Proof_polygon Proof_ffi_order Proof_ffi_result.
Import ListNotations.
Local Open Scope nat_scope.

(** The triangle of three point indices. *)
Definition triangle_at {P} (coords : P -> vec3) (points : list P) (a b c : nat) (t : triangle) : Prop :=
  exists pa pb pc, nth_error points a = Some pa /\ nth_error points b = Some pb /\ nth_error points c = Some pc /\
    t = (coords pa, coords pb, coords pc).

Lemma hull_parts : forall m k, left_part (convex_hull (side true m) (side false k)) = m /\ right_part (convex_hull (side true m) (side false k)) = k.
Proof. intros [ [ [ | ] [ | ] ] [ | ] ] [ [ [ | ] [ | ] ] [ | ] ]; split; reflexivity. Qed.
Lemma hull_at_parts : forall lst i, i < length lst ->
  left_part (hull_at (map enc lst) i) = fst (nth i lst none) /\ right_part (hull_at (map enc lst) i) = snd (nth i lst none).
Proof.
  intros lst i H. unfold hull_at. rewrite nth_error_map, (nth_error_nth' lst none) by exact H. cbn [option_map]. unfold enc. cbn [fst snd]. apply hull_parts.
Qed.
Lemma triangle_pts : forall {P} (coords : P -> vec3) points a b c t, triangle_at coords points a b c t ->
  a < length points /\ b < length points /\ c < length points /\ t = (at_ coords points a, at_ coords points b, at_ coords points c).
Proof.
  intros P coords points a b c t (pa & pb & pc & A & B & C & ->).
  repeat split; try (apply nth_error_Some; congruence). unfold at_. rewrite A, B, C. reflexivity.
Qed.

(** Everything about one call. *)
Lemma ffi_all : forall {P} (coords : P -> vec3) points a b c p q r T U,
  triangle_at coords points a b c T -> triangle_at coords points p q r U -> nondegenerate T -> nondegenerate U ->
  exists lst f o, NoDup lst /\ (forall m k, In (m, k) lst <-> meet T U m k) /\ (forall i, i < length lst -> located T U lst i (f i)) /\
    Permutation (seq 0 (length lst)) o /\ length lst <= 6 /\
    face_face_intersection coords points a b c p q r = Ok (map (hull_at (map enc lst)) o) /\
    forall i, i < length lst -> is_side T U (px f (nth i o 0)) (px f (nth ((i + 1) mod length lst) o 0)).
Proof.
  intros P coords points a b c p q r T U HT HU NT NU.
  destruct (triangle_pts _ _ _ _ _ _ HT) as (La & Lb & Lc & ET). destruct (triangle_pts _ _ _ _ _ _ HU) as (Lp & Lq & Lr & EU).
  destruct (all_ok coords points a b c p q r La Lb Lc Lp Lq Lr) as (st & lst & A & B & D & I); [ rewrite <- ET; exact NT | rewrite <- EU; exact NU | ].
  rewrite <- ET, <- EU in I. destruct (located_exists T U lst I) as (f & Hf).
  destruct (result_ok T U NT NU lst D I f Hf) as (o & Po & L6 & Ro & So).
  exists lst, f, o. split; [ exact D | ]. split; [ exact I | ]. split; [ exact Hf | ]. split; [ exact Po | ]. split; [ exact L6 | ]. split; [ | exact So ]. unfold face_face_intersection. rewrite A. cbn [bind]. rewrite B. exact Ro.
Qed.

Section Entries.
  Variables T U : triangle.
  Hypothesis NT : nondegenerate T.
  Hypothesis NU : nondegenerate U.
  Variable lst : list (mask * mask).
  Hypothesis D : NoDup lst.
  Hypothesis I : forall m k, In (m, k) lst <-> meet T U m k.
  Variable f : nat -> vec3 * tri * tri.
  Hypothesis Hf : forall i, i < length lst -> located T U lst i (f i).
  Notation reg := (hull_at (map enc lst)).
  Lemma at_px : forall i, i < length lst -> at_region T U (reg i) (px f i).
  Proof. intros i H. unfold at_region. destruct (hull_at_parts lst i H) as [-> ->]. apply (px_features T U NT NU lst f Hf i H). Qed.
  Lemma at_same : forall i x, i < length lst -> at_region T U (reg i) x -> same_point (px f i) x.
  Proof.
    intros i x H A. destruct (at_px i H) as [B1 B2]. destruct A as [A1 A2]. destruct (hull_at_parts lst i H) as [E1 E2]. rewrite E1 in A1, B1. rewrite E2 in A2, B2.
    assert (J : In (fst (nth i lst none), snd (nth i lst none)) lst) by (rewrite <- surjective_pairing; apply nth_In; exact H). apply I in J. destruct J as [_ Tr].
    apply (meet_unique T U _ _ _ _ Tr); assumption.
  Qed.
End Entries.

(** The result exists (in particular nothing throws), its entries are distinct regions,
    every entry is the place of exactly one point and this point is a vertex of the
    intersection, and every vertex of the intersection is at exactly one entry. *)
Theorem C36_exact : forall {P} (coords : P -> vec3) points a b c p q r T U,
  triangle_at coords points a b c T -> triangle_at coords points p q r U -> nondegenerate T -> nondegenerate U ->
  exists l, face_face_intersection coords points a b c p q r = Ok l /\ NoDup l /\
    (forall reg, In reg l -> exists x, is_vertex T U x /\ at_region T U reg x /\ forall y, at_region T U reg y -> same_point x y) /\
    (forall x, is_vertex T U x -> exists reg, In reg l /\ at_region T U reg x /\ forall reg', In reg' l -> at_region T U reg' x -> reg' = reg).
Proof.
  intros P coords points a b c p q r T U HT HU NT NU. destruct (ffi_all coords points a b c p q r T U HT HU NT NU) as (lst & f & o & D & I & Hf & Po & L6 & E & _).
  assert (Ro : forall i, In i o <-> i < length lst) by (intro i; split; intro J; [ apply (Permutation_in _ (Permutation_sym Po)) in J; apply in_seq in J; lia | apply (Permutation_in _ Po); apply in_seq; lia ]).
  assert (Inj : forall i j, i < length lst -> j < length lst -> hull_at (map enc lst) i = hull_at (map enc lst) j -> i = j).
  { intros i j Hi Hj X. apply (px_distinct T U NT NU lst D f Hf i j Hi Hj). apply (at_same T U NT NU lst I f Hf i _ Hi). rewrite X. apply at_px; assumption. }
  exists (map (hull_at (map enc lst)) o). split; [ exact E | ]. split; [ | split ].
  - assert (Do : NoDup o) by (eapply Permutation_NoDup; [ exact Po | apply seq_NoDup ]).
    assert (G : forall l, NoDup l -> (forall i, In i l -> i < length lst) -> NoDup (map (hull_at (map enc lst)) l)).
    { induction l as [ | i l IH]; intros Dn Rn; [ constructor | ]. inversion Dn as [ | ? ? Ni Dn']; subst. cbn [map]. constructor; [ | apply IH; [ exact Dn' | intros j Hj; apply Rn; right; exact Hj ] ].
      intro J. apply in_map_iff in J. destruct J as (j & X & J). apply Inj in X; [ subst; auto | apply Rn; right; exact J | apply Rn; left; reflexivity ]. }
    apply G; [ exact Do | intro i; apply Ro ].
  - intros reg J. apply in_map_iff in J. destruct J as (i & <- & J). apply Ro in J. exists (px f i). split; [ apply (px_vertex T U NT NU lst I f Hf i J) | ].
    split; [ apply (at_px T U NT NU lst f Hf i J) | ]. intros y Y. apply (at_same T U NT NU lst I f Hf i y J Y).
  - intros x V. destruct (vertex_px T U NT NU lst I f Hf x V) as (i & Hi & X). exists (hull_at (map enc lst) i). split; [ apply in_map, Ro, Hi | ].
    assert (A : at_region T U (hull_at (map enc lst) i) x).
    { destruct (at_px T U NT NU lst f Hf i Hi) as [A1 A2]. split; eapply in_feature_same; try eassumption; apply same_sym; exact X. }
    split; [ exact A | ]. intros reg' J A'. apply in_map_iff in J. destruct J as (j & <- & J). apply Ro in J. f_equal.
    apply (px_distinct T U NT NU lst D f Hf j i J Hi). eapply same_trans; [ apply (at_same T U NT NU lst I f Hf j x J A') | exact X ].
Qed.
Print Assumptions C36_exact.

(** The intersection of the triangles is the convex hull of the listed points. *)
Theorem C36_hull : forall {P} (coords : P -> vec3) points a b c p q r T U,
  triangle_at coords points a b c T -> triangle_at coords points p q r U -> nondegenerate T -> nondegenerate U ->
  exists l, face_face_intersection coords points a b c p q r = Ok l /\
    forall x, both T U x <-> in_hull (fun y => exists reg, In reg l /\ at_region T U reg y) x.
Proof.
  intros P coords points a b c p q r T U HT HU NT NU. destruct (C36_exact coords points a b c p q r T U HT HU NT NU) as (l & E & _ & A & B).
  exists l. split; [ exact E | ]. intro x. split.
  - intro X. apply (hull_vertices T U x NT NU) in X. destruct X as (w & F & S & X). exists w. split; [ | auto ]. eapply Forall_impl; [ | exact F ].
    intros e [K V]. split; [ exact K | ]. destruct (B _ V) as (reg & J & R & _). eauto.
  - intros (w & F & S & X).
    assert (Bo : forall y reg, In reg l -> at_region T U reg y -> both T U y).
    { intros y reg J [R1 R2]. split; eapply feature_inside; eassumption. }
    assert (G : forall t w, Forall (fun e => (0 <= fst e)%Q /\ inside t (snd e)) w -> exists u v z, (0 <= u /\ 0 <= v /\ 0 <= z /\ u + v + z == total w)%Q /\ same_point (wsum w) (comb t u v z)).
    { clear. intros t. induction w as [ | [k y] w IH]; intro F.
      - exists 0%Q, 0%Q, 0%Q. destruct t as [ [t0 t1] t2]. cbn. repeat split; try lra; ring.
      - inversion F as [ | ? ? [K (u' & v' & z' & (U1 & V1 & Z1 & S1) & Y)] F']; subst. cbn [fst snd] in *. destruct (IH F') as (u & v & z & (U0 & V0 & Z0 & S0) & (X0 & X1 & X2)).
        destruct t as [ [t0 t1] t2]. destruct Y as (Y0 & Y1 & Y2). exists (k * u' + u)%Q, (k * v' + v)%Q, (k * z' + z)%Q. split.
        + split; [ nra | ]. split; [ nra | ]. split; [ nra | ]. cbn [total]. rewrite <- S0. transitivity (k * (u' + v' + z') + (u + v + z))%Q; [ ring | rewrite S1; ring ].
        + unfold same_point, comb in *. cbn [wsum vx vy vz fst snd] in *. rewrite X0, X1, X2, Y0, Y1, Y2. repeat split; ring. }
    assert (Gt : forall t, (forall y, both T U y -> inside t y) -> inside t x).
    { intros t Ht. destruct (G t w) as (u & v & z & (H0 & H1 & H2 & S0) & Y).
      - eapply Forall_impl; [ | exact F ]. intros e [K (reg & J & R)]. split; [ exact K | ]. apply Ht. eapply Bo; eauto.
      - exists u, v, z. rewrite S in S0. split; [ auto | ]. eapply same_trans; eauto. }
    split; [ apply Gt; intros y [Y _]; exact Y | apply Gt; intros y [_ Y]; exact Y ].
Qed.
Print Assumptions C36_hull.

(** The list is empty exactly if the triangles have no point in common. *)
Theorem C36_empty : forall {P} (coords : P -> vec3) points a b c p q r T U,
  triangle_at coords points a b c T -> triangle_at coords points p q r U -> nondegenerate T -> nondegenerate U ->
  (face_face_intersection coords points a b c p q r = Ok [] <-> ~ exists x, inside T x /\ inside U x).
Proof.
  intros P coords points a b c p q r T U HT HU NT NU. destruct (C36_exact coords points a b c p q r T U HT HU NT NU) as (l & E & _ & A & B).
  destruct (C36_hull coords points a b c p q r T U HT HU NT NU) as (l' & E' & H). rewrite E in E'. injection E' as <-. rewrite E. split.
  - intro X. injection X as ->. intros (x & X). apply (H x) in X. destruct X as ([ | e w] & F & S & _); [ cbn in S; lra | ]. inversion F as [ | ? ? [_ (reg & [ ] & _)] _].
  - intro N. destruct l as [ | reg l]; [ reflexivity | exfalso ]. destruct (A reg (or_introl eq_refl)) as (x & (V & _) & _). apply N. exists x. exact V.
Qed.
Print Assumptions C36_empty.

(** There are at most six entries, and they are in the order of the polygon: no segment
    of the intersection crosses the segment between the points of two (cyclically)
    consecutive entries. *)
Theorem C36_order : forall {P} (coords : P -> vec3) points a b c p q r T U,
  triangle_at coords points a b c T -> triangle_at coords points p q r U -> nondegenerate T -> nondegenerate U ->
  exists l, face_face_intersection coords points a b c p q r = Ok l /\ length l <= 6 /\
    forall i reg reg' y z, nth_error l i = Some reg -> nth_error l ((i + 1) mod length l) = Some reg' ->
      at_region T U reg y -> at_region T U reg' z -> is_side T U y z.
Proof.
  intros P coords points a b c p q r T U HT HU NT NU. destruct (ffi_all coords points a b c p q r T U HT HU NT NU) as (lst & f & o & D & I & Hf & Po & L6 & E & So).
  assert (Lo : length o = length lst) by (apply Permutation_length in Po; rewrite seq_length in Po; auto).
  assert (Ro : forall i, i < length lst -> nth i o 0 < length lst).
  { intros i Hi. assert (X : In (nth i o 0) (seq 0 (length lst))) by (apply (Permutation_in _ (Permutation_sym Po)); apply nth_In; lia). apply in_seq in X. lia. }
  exists (map (hull_at (map enc lst)) o). split; [ exact E | ]. rewrite map_length, Lo. split; [ exact L6 | ].
  intros i reg reg' y z Hr Hr' Y Z. assert (Hi : i < length lst) by (rewrite <- Lo, <- (map_length (hull_at (map enc lst)) o); apply nth_error_Some; congruence).
  assert (Hj : (i + 1) mod length lst < length lst) by (apply Nat.mod_upper_bound; lia).
  rewrite nth_error_map, (nth_error_nth' o 0) in Hr by lia. rewrite nth_error_map, (nth_error_nth' o 0) in Hr' by lia. injection Hr as <-. injection Hr' as <-.
  eapply side_same; [ apply (at_same T U NT NU lst I f Hf _ _ (Ro _ Hi) Y) | apply (at_same T U NT NU lst I f Hf _ _ (Ro _ Hj) Z) | apply So; exact Hi ].
Qed.
Print Assumptions C36_order.

(** ** C37 *)
(** The answers to a sequence of orientation tests, Face_face_intersection.h:318-334. *)
Fixpoint answers {P} (coords : P -> vec3) (points : list P) (st : ffi_state) (qs : list (nat * nat * nat * nat)) : res (list comparison) :=
  match qs with
  | [] => Ok []
  | (a, b, c, d) :: qs =>
      let* so := orientation4 coords points st a b c d in
      let* os := answers coords points (fst so) qs in
      Ok (snd so :: os)
  end.
(** The orientation of four points is the sign of the determinant
      | qx-px  qy-py  qz-pz |
      | rx-px  ry-py  rz-pz |
      | sx-px  sy-py  sz-pz | . *)
Definition has_orientation (p q r s : vec3) (o : comparison) : Prop :=
  let d := ((vx q - vx p) * ((vy r - vy p) * (vz s - vz p) - (vz r - vz p) * (vy s - vy p))
          - (vy q - vy p) * ((vx r - vx p) * (vz s - vz p) - (vz r - vz p) * (vx s - vx p))
          + (vz q - vz p) * ((vx r - vx p) * (vy s - vy p) - (vy r - vy p) * (vx s - vx p)))%Q in
  match o with Gt => (0 < d)%Q | Eq => (d == 0)%Q | Lt => (d < 0)%Q end.

(** Any sequence of tests, from the state in which a call starts, answers every test with
    the orientation of the four points in the order given. *)
Theorem C37_cached_orientation : forall {P} (coords : P -> vec3) points qs inters,
  Forall (fun e => let '(a, b, c, d) := e in a < length points /\ b < length points /\ c < length points /\ d < length points) qs ->
  exists os, answers coords points (mk_ffi inters []) qs = Ok os /\
    Forall2 (fun e o => let '(a, b, c, d) := e in
      exists pa pb pc pd, nth_error points a = Some pa /\ nth_error points b = Some pb /\ nth_error points c = Some pc /\ nth_error points d = Some pd /\
        has_orientation (coords pa) (coords pb) (coords pc) (coords pd) o) qs os.
Proof.
  intros P coords points qs inters.
  assert (Some_at : forall i, i < length points -> exists p, nth_error points i = Some p /\ coords p = at_ coords points i).
  { intros i H. unfold at_. destruct (nth_error points i) as [p | ] eqn:E; [ eauto | apply nth_error_None in E; lia ]. }
  assert (C0 : cache_ok coords points (ffi_cache (mk_ffi inters []))) by (intros k o [ ]).
  revert C0. generalize (mk_ffi inters []). induction qs as [ | [ [ [a b] c] d] qs IH]; intros st Hc F; [ exists []; split; [ reflexivity | constructor ] | ].
  inversion F as [ | ? ? Hd F']; subst. destruct Hd as (La & Lb & Lc & Ld). destruct (orientation4_ok coords points st a b c d Hc La Lb Lc Ld) as (cache & E & Hc').
  destruct (IH (mk_ffi (ffi_inters st) cache) Hc' F') as (os & Eo & Fo). exists (O4 coords points a b c d :: os). cbn [answers]. rewrite E. cbn [bind fst snd]. rewrite Eo. cbn [bind].
  split; [ reflexivity | ]. constructor; [ | exact Fo ].
  destruct (Some_at a La) as (pa & Ea & Ca). destruct (Some_at b Lb) as (pb & Eb & Cb). destruct (Some_at c Lc) as (pc & Ec & Cc). destruct (Some_at d Ld) as (pd & Ed & Cd).
  exists pa, pb, pc, pd. repeat (split; [ assumption | ]). rewrite Ca, Cb, Cc, Cd. unfold O4, orientation_3.
  set (A := at_ coords points a). set (B := at_ coords points b). set (C := at_ coords points c). set (E0 := at_ coords points d).
  unfold has_orientation.
  match goal with |- match _ with Gt => (0 < ?e)%Q | _ => _ end => assert (Ed3 : (det3 A B C E0 == e)%Q) end.
  { destruct A as [ [? ?] ?], B as [ [? ?] ?], C as [ [? ?] ?], E0 as [ [? ?] ?]. unfold det3, vdot, vcross, vsub, vx, vy, vz. cbn [fst snd]. ring. }
  destruct (sign (det3 A B C E0)) eqn:S; rewrite <- Ed3; [ apply sign_zero | apply sign_neg | apply sign_pos ]; exact S.
Qed.
Print Assumptions C37_cached_orientation.

(** ** Cases *)
(** Two triangles in a plane that meet in a hexagon, and two that share a vertex. *)
Definition zp (x y z : Z) : vec3 := (inject_Z x, inject_Z y, inject_Z z).
Definition star : list vec3 := [zp 0 0 0; zp 6 0 0; zp 3 6 0; zp 0 4 0; zp 6 4 0; zp 3 (-2) 0].
Example C36_hexagon : exists l, face_face_intersection (fun x => x) star 0 1 2 3 4 5 = Ok l /\ length l = 6.
Proof. eexists. split; [ vm_compute; reflexivity | reflexivity ]. Qed.
Example C36_hexagon_applies : exists T U, triangle_at (fun x => x) star 0 1 2 T /\ triangle_at (fun x => x) star 3 4 5 U /\ nondegenerate T /\ nondegenerate U.
Proof.
  exists (zp 0 0 0, zp 6 0 0, zp 3 6 0), (zp 0 4 0, zp 6 4 0, zp 3 (-2) 0).
  split; [ do 3 eexists; repeat split; reflexivity | ]. split; [ do 3 eexists; repeat split; reflexivity | ].
  split; intro H; apply (Proof_defect_edges.is_degenerate_iff (fun x => x)) in H; vm_compute in H; discriminate.
Qed.
(** A triangle that pierces another: one edge goes through the face, the other triangle's
    edge is not met. *)
Definition pierce : list vec3 := [zp 0 0 0; zp 8 0 0; zp 0 8 0; zp 1 1 (-1); zp 1 1 1; zp 2 2 1].
Example C36_segment : exists l, face_face_intersection (fun x => x) pierce 0 1 2 3 4 5 = Ok l /\ length l = 2.
Proof. eexists. split; [ vm_compute; reflexivity | reflexivity ]. Qed.
Example C37_repeats : answers (fun x => x) pierce (mk_ffi [] []) [(0, 1, 2, 3); (3, 2, 1, 0); (1, 0, 2, 3); (0, 0, 2, 3); (0, 1, 2, 4)] = Ok [Lt; Lt; Gt; Eq; Gt].
Proof. vm_compute. reflexivity. Qed.
