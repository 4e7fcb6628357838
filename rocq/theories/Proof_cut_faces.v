(** * The pieces of two meshes cut along their intersection fit together *)
From Coq Require Import List Arith Bool QArith Lqa Lia.
From Verif Require Import Model_base Model_geometry Model_soup Model_corefine Spec_candidates Spec_defects Spec_ffi Spec_corefine Spec_mix.
From Verif Require Import Proof_fan Proof_extreme Proof_hull Proof_ffi_result Proof_cells Proof_outline Proof_cut.
Import ListNotations.
Local Open Scope nat_scope.

(** [s] is the side: left or right.  Face [F] has the corners [t] when [fc s F t]; [unk s F]:
    no face of the other mesh has the same corners; [tiles_of s F] are its pieces;
    [outl s F G] are the ids of the outline of its intersection with [G]. *)
Section Cut.
  Variable pos : nat -> vec3.
  Variable fc : bool -> nat -> nat * nat * nat -> Prop.
  Variable unk : bool -> nat -> Prop.
  Variable tiles_of : bool -> nat -> list (nat * nat * nat).
  Variable outl : bool -> nat -> nat -> list nat.
  Notation tri := (triangle_of pos).
  Definition tile s F k T : Prop := nth_error (tiles_of s F) k = Some T.
  Definition alike (t u : nat * nat * nat) : Prop := forall v, has_vertex t v <-> has_vertex u v.
  (** The vertices of the triangulation of a face. *)
  Definition vert s F v : Prop := (exists t, fc s F t /\ has_vertex t v) \/ exists G, In v (outl s F G).

  Record cutting : Prop := {
    ct_fun : forall s F t u, fc s F t -> fc s F u -> t = u;
    ct_nd : forall s F t, fc s F t -> nondegenerate (tri t);
    ct_simp : forall s F G t u m k x, fc s F t -> fc s G u -> in_feature (tri t) m x -> in_feature (tri u) k x ->
      forall v, In v (pick m t) <-> In v (pick k u);
    ct_twin : forall s F G t u, fc s F t -> fc s G u -> alike t u -> F = G;
    ct_tag : forall s F t, fc s F t -> unk s F \/ (~ unk s F /\ exists G u, fc (negb s) G u /\ alike t u);
    ct_unk : forall s F t G u, fc s F t -> unk s F -> fc (negb s) G u -> ~ alike t u;
    ct_some : forall s F G, outl s F G <> [] -> exists t u, fc s F t /\ unk s F /\ fc (negb s) G u /\ unk (negb s) G;
    ct_sym : forall s F G, outl (negb s) G F = outl s F G;
    ct_nodup : forall s F G, NoDup (outl s F G);
    ct_vertex : forall s F G t u v, fc s F t -> fc (negb s) G u -> In v (outl s F G) -> is_vertex (tri t) (tri u) (pos v);
    ct_all : forall s F G t u x, fc s F t -> fc (negb s) G u -> unk s F -> unk (negb s) G -> is_vertex (tri t) (tri u) x ->
      exists v, In v (outl s F G) /\ same_point x (pos v);
    ct_side : forall s F G t u i j, fc s F t -> fc (negb s) G u -> In i (outl s F G) -> In j (outl s F G) -> i <> j ->
      is_side (tri t) (tri u) (pos i) (pos j) -> neighbours (outl s F G) i j \/ neighbours (outl s F G) j i;
    ct_tiles : forall s F t, fc s F t -> tiles (tri t) (map tri (tiles_of s F));
    ct_single : forall s F t, fc s F t -> ~ unk s F -> tiles_of s F = [t];
    ct_complex : forall s F k l T U m n x, tile s F k T -> tile s F l U -> in_feature (tri T) m x -> in_feature (tri U) n x ->
      forall v, In v (pick m T) <-> In v (pick n U);
    ct_vert : forall s F k T v, tile s F k T -> has_vertex T v -> vert s F v;
    ct_used : forall s F v, vert s F v -> exists k T, tile s F k T /\ has_vertex T v;
    ct_edge : forall s F G i j, neighbours (outl s F G) i j -> exists k T, tile s F k T /\ has_vertex T i /\ has_vertex T j;
    ct_inj : forall s F v s' F' v', vert s F v -> vert s' F' v' -> same_point (pos v) (pos v') -> v = v'
  }.
  Hypothesis C : cutting.

  Lemma alike_sym : forall t u, alike t u -> alike u t.
  Proof. intros t u H v. symmetry. apply H. Qed.

  Lemma tile_in : forall s F t k T, fc s F t -> tile s F k T ->
    nondegenerate (tri T) /\ (forall x, inside (tri T) x -> inside (tri t) x) /\ (forall x, in_feature (tri T) full x -> in_feature (tri t) full x).
  Proof.
    intros s F t k T H HT. pose proof (ct_tiles C s F t H) as Ti. assert (J : In (tri T) (map tri (tiles_of s F))) by (apply in_map; exact (nth_error_In _ _ HT)).
    assert (N : nondegenerate (tri T)) by exact (turned_nondegenerate _ _ (tl_turn _ _ Ti _ J)).
    assert (I : forall x, inside (tri T) x -> inside (tri t) x) by (intros x; exact (tl_inside _ _ Ti _ x J)).
    split; [ exact N | ]. split; [ exact I | ]. intros x. exact (interior_part _ _ x N I).
  Qed.

  Lemma tile_vertex : forall s F t k T v, fc s F t -> tile s F k T -> vert s F v -> inside (tri T) (pos v) -> has_vertex T v.
  Proof.
    intros s F t k T v H HT V I. destruct (ct_used C s F v V) as (l & U & HU & Hv). destruct (corner_feature pos U v Hv) as (m & Fm & _ & Em).
    apply inside_feature in I. destruct I as (n & Fn). apply (pick_has n). apply (ct_complex C s F l k U T m n (pos v) HU HT Fm Fn). apply Em. reflexivity.
  Qed.

  Lemma tile_apart : forall s F t k l T U x, fc s F t -> tile s F k T -> tile s F l U -> in_feature (tri T) full x -> inside (tri U) x -> k = l.
  Proof.
    intros s F t k l T U x H HT HU Fx I. apply inside_feature in I. destruct I as (n & Fn).
    destruct (tile_in s F t k T H HT) as (NT & _).
    destruct (pick_all pos T U n NT) as [-> _].
    { intros v Hv. apply (ct_complex C s F k l T U full n x HT HU Fx Fn). apply has_pick, Hv. }
    apply (tl_apart _ _ (ct_tiles C s F t H) k l (tri T) (tri U) x); [ apply map_nth_error, HT | apply map_nth_error, HU | exact Fx | exact Fn ].
  Qed.

  (** Inner points of a face are in no other face of the mesh. *)
  Lemma face_apart : forall s F G t u x, fc s F t -> fc s G u -> in_feature (tri t) full x -> inside (tri u) x -> F = G.
  Proof.
    intros s F G t u x H K Fx I. apply inside_feature in I. destruct I as (n & Fn). pose proof (ct_simp C s F G t u full n x H K Fx Fn) as E.
    destruct (pick_all pos t u n (ct_nd C s F t H)) as [-> A]; [ intros v Hv; apply E, has_pick, Hv | ].
    apply (ct_twin C s F G t u H K). intro v. split; [ intro Hv; apply has_pick, E, has_pick, Hv | apply A ].
  Qed.

  (** The face of the other mesh that a coinciding face coincides with. *)
  Lemma twin : forall s F t, fc s F t -> ~ unk s F -> exists G u, fc (negb s) G u /\ ~ unk (negb s) G /\ alike t u /\
    tile s F 0 t /\ tile (negb s) G 0 u /\ forall x, (inside (tri t) x <-> inside (tri u) x) /\ (in_feature (tri t) full x <-> in_feature (tri u) full x).
  Proof.
    intros s F t H N. destruct (ct_tag C s F t H) as [U | (_ & G & u & K & A)]; [ contradiction | ]. exists G, u.
    assert (NG : ~ unk (negb s) G).
    { intro U. apply (ct_unk C (negb s) G u F t K U); [ rewrite negb_involutive; exact H | apply alike_sym, A ]. }
    assert (I : forall x, inside (tri t) x <-> inside (tri u) x) by (intro x; split; apply same_inside; intros v; apply A).
    split; [ exact K | ]. split; [ exact NG | ]. split; [ exact A | ]. split; [ unfold tile; rewrite (ct_single C s F t H N); reflexivity | ].
    split; [ unfold tile; rewrite (ct_single C _ G u K NG); reflexivity | ]. intro x. split; [ apply I | ].
    split; apply interior_part; try (intro y; apply I); eapply ct_nd; eassumption.
  Qed.

  Lemma single : forall s F t k T, fc s F t -> ~ unk s F -> tile s F k T -> T = t /\ k = 0.
  Proof.
    intros s F t k T H N HT. unfold tile in HT. rewrite (ct_single C s F t H N) in HT. destruct k as [ | k]; [ injection HT as <-; auto | destruct k; discriminate ].
  Qed.

  (** Every vertex of a triangulation that lies in a piece is one of its corners. *)
  Lemma any_vertex : forall s F t k T s' F' v, fc s F t -> tile s F k T -> vert s' F' v -> inside (tri T) (pos v) -> has_vertex T v.
  Proof.
    (* corners of the same mesh *)
    assert (own : forall s F t k T F' t' v, fc s F t -> tile s F k T -> fc s F' t' -> has_vertex t' v -> inside (tri T) (pos v) -> has_vertex T v).
    { intros s F t k T F' t' v H HT H' Hv I. apply (tile_vertex s F t k T v H HT); [ | exact I ]. left. exists t. split; [ exact H | ].
      destruct (corner_feature pos t' v Hv) as (m & Fm & _ & Em). pose proof (proj1 (proj2 (tile_in s F t k T H HT)) _ I) as If. apply inside_feature in If. destruct If as (n & Fn).
      apply (pick_has n). apply (ct_simp C s F' F t' t m n (pos v) H' H Fm Fn). apply Em. reflexivity. }
    (* corners of the other mesh *)
    assert (other : forall s F t k T G u v, fc s F t -> tile s F k T -> fc (negb s) G u -> has_vertex u v -> inside (tri T) (pos v) -> has_vertex T v).
    { intros s F t k T G u v H HT K Hv I. pose proof (proj1 (proj2 (tile_in s F t k T H HT)) _ I) as If.
      destruct (ct_tag C s F t H) as [Uf | (Nf & _)].
      - destruct (ct_tag C (negb s) G u K) as [Ug | (Ng & _)].
        + apply (tile_vertex s F t k T v H HT); [ | exact I ]. destruct (corner_feature pos u v Hv) as (m & Fm & Bm & _).
          destruct (ct_all C s F G t u (pos v) H K Uf Ug) as (v' & J & E).
          { apply vertex_sym. exact (corner_vertex _ _ m _ (ct_nd C _ _ _ K) Fm Bm If). }
          assert (Ev : v = v') by (apply (ct_inj C (negb s) G v s F v'); [ left; eauto | right; eauto | exact E ]). subst v'. right. eauto.
        + destruct (twin (negb s) G u K Ng) as (F2 & t2 & H2 & _ & A & _). rewrite negb_involutive in H2. apply (own s F t k T F2 t2 v H HT H2); [ apply A, Hv | exact I ].
      - destruct (single s F t k T H Nf HT) as [-> ->]. destruct (twin s F t H Nf) as (G2 & u2 & K2 & _ & A & _ & Tu & S). apply A.
        apply (own (negb s) G2 u2 0 u2 G u v K2 Tu K Hv). apply S, I. }
    (* vertices of outlines *)
    assert (out : forall s F t k T F' G v, fc s F t -> tile s F k T -> In v (outl s F' G) -> inside (tri T) (pos v) -> has_vertex T v).
    { intros s F t k T F' G v H HT J I. destruct (ct_some C s F' G) as (t' & u & H' & U' & K & Ug); [ intro E; rewrite E in J; destruct J | ].
      pose proof (ct_vertex C s F' G t' u v H' K J) as V. pose proof (proj1 (proj2 (tile_in s F t k T H HT)) _ I) as If.
      apply inside_feature in If. destruct If as (n & Fn). pose proof (proj1 (proj1 V)) as If'. apply inside_feature in If'. destruct If' as (m & Fm).
      pose proof (ct_simp C s F' F t' t m n (pos v) H' H Fm Fn) as E.
      destruct (ct_tag C s F t H) as [Uf | (Nf & _)].
      - apply (tile_vertex s F t k T v H HT); [ | exact I ].
        destruct (ct_all C s F G t u (pos v) H K Uf Ug) as (v' & J' & Ev); [ exact (vertex_transfer pos t' t (tri u) m n (pos v) (ct_nd C _ _ _ H) Fm Fn E V) | ].
        assert (v = v') by (apply (ct_inj C s F' v s F v'); [ right; eauto | right; eauto | exact Ev ]). subst v'. right. eauto.
      - destruct (single s F t k T H Nf HT) as [-> ->]. destruct (twin s F t H Nf) as (G2 & u2 & K2 & N2 & A & Tt & Tu & S).
        pose proof (ct_nd C _ _ _ H) as Nt. pose proof (ct_nd C _ _ _ H') as Nt'.
        destruct (bits_full n) as [B | ->].
        2: { exfalso. apply Nf. replace F with F'; [ exact U' | symmetry ]. apply (face_apart s F F' t t' (pos v) H H' Fn). exact (feature_inside _ _ _ Fm). }
        pose proof (bits_pos _ _ _ Fn) as B1. destruct (Nat.eq_dec (bits n) 1) as [Bn | Bn].
        + destruct (feature_vertex pos t n (pos v) Fn Bn) as (v' & Hv' & _ & Ev). replace v with v'; [ exact Hv' | symmetry ].
          apply (ct_inj C s F' v s F v'); [ right; eauto | left; eauto | exact Ev ].
        + exfalso. destruct (feature_edge pos t n (pos v) Nt Fn ltac:(lia)) as (a & b & Nab & Ha & Hb & En & Bab).
          (* both ends are in F' and in G *)
          assert (I1 : inside (tri t') (pos a) /\ inside (tri t') (pos b)).
          { split; apply corner_inside, (pick_has m), E, En; auto. }
          destruct (edge_feature pos u2 a b (pos v) (proj1 (A a) Ha) (proj1 (A b) Hb) Nab Bab) as (m2 & F2 & _ & E2).
          pose proof (proj2 (proj1 V)) as Ig. apply inside_feature in Ig. destruct Ig as (mg & Fg).
          pose proof (ct_simp C (negb s) G2 G u2 u m2 mg (pos v) K2 K F2 Fg) as Eg.
          assert (I2 : inside (tri u) (pos a) /\ inside (tri u) (pos b)).
          { split; apply corner_inside, (pick_has mg), Eg, E2; auto. }
          destruct (vertex_between (tri t') (tri u) (pos v) (pos a) (pos b) V) as [X Y]; [ split; tauto | split; tauto | exact Bab | ].
          apply Nab. apply (ct_inj C s F a s F b); [ left; eauto | left; eauto | ]. eapply same_trans; [ apply same_sym; exact X | exact Y ]. }
    intros s F t k T s' F' v H HT V I. destruct (Bool.bool_dec s' s) as [-> | Ns].
    - destruct V as [(t' & H' & Hv) | (G & J)]; [ exact (own s F t k T F' t' v H HT H' Hv I) | exact (out s F t k T F' G v H HT J I) ].
    - assert (s' = negb s) by (destruct s, s'; auto; congruence). subst s'.
      destruct V as [(t' & H' & Hv) | (G & J)]; [ exact (other s F t k T F' t' v H HT H' Hv I) | ].
      apply (out s F t k T G F' v H HT); [ | exact I ]. rewrite <- (ct_sym C s G F'). exact J.
  Qed.

  (** How a piece meets a face of the other mesh. *)
  Lemma meet_cases : forall s F t G u x, fc s F t -> unk s F -> fc (negb s) G u -> unk (negb s) G -> inside (tri t) x -> inside (tri u) x ->
    (exists v, vert s F v /\ vert (negb s) G v /\ same_point x (pos v)) \/
    (exists i j, i <> j /\ strictly_between (pos i) (pos j) x /\ (neighbours (outl s F G) i j \/ neighbours (outl s F G) j i)) \/
    (in_feature (tri t) full x /\ in_feature (tri u) full x /\ zero3 (vcross (normal (tri t)) (normal (tri u)))).
  Proof.
    intros s F t G u x H Uf K Ug It Iu. destruct (cell_cases (tri t) (tri u) x (ct_nd C _ _ _ H) (ct_nd C _ _ _ K) (conj It Iu)) as [V | [(y & z & Vy & Vz & Nyz & S & B) | X] ]; [ | | auto ].
    - left. destruct (ct_all C s F G t u x H K Uf Ug V) as (v & J & E). exists v. split; [ right; eauto | ]. split; [ right; exists F; rewrite ct_sym by exact C; exact J | exact E ].
    - right. left. destruct (ct_all C s F G t u y H K Uf Ug Vy) as (i & Ji & Ei). destruct (ct_all C s F G t u z H K Uf Ug Vz) as (j & Jj & Ej).
      assert (Nij : i <> j) by (intros ->; apply Nyz; eapply same_trans; [ exact Ei | apply same_sym; exact Ej ]).
      exists i, j. split; [ exact Nij | ]. split; [ exact (between_same _ _ _ _ _ _ Ei Ej (same_refl _) B) | ].
      apply (ct_side C s F G t u i j H K Ji Jj Nij). exact (side_same _ _ _ _ _ _ Ei Ej S).
  Qed.

  Lemma neighbours_edge : forall s F G i j, neighbours (outl s F G) i j \/ neighbours (outl s F G) j i ->
    (exists k T, tile s F k T /\ has_vertex T i /\ has_vertex T j) /\ (exists k T, tile (negb s) G k T /\ has_vertex T i /\ has_vertex T j).
  Proof.
    intros s F G i j [N | N].
    - split; [ exact (ct_edge C s F G i j N) | ]. apply (ct_edge C (negb s) G F i j). rewrite (ct_sym C). exact N.
    - split.
      + destruct (ct_edge C s F G j i N) as (k & T & A & B & D). eauto.
      + rewrite <- (ct_sym C) in N. destruct (ct_edge C (negb s) G F j i N) as (k & T & A & B & D). eauto.
  Qed.

  (** Inner points of a piece that lie in a face of the other mesh are inner points of that. *)
  Lemma inner : forall s F t k T G u x, fc s F t -> unk s F -> tile s F k T -> fc (negb s) G u ->
    in_feature (tri T) full x -> inside (tri u) x ->
    unk (negb s) G /\ in_feature (tri u) full x /\ zero3 (vcross (normal (tri t)) (normal (tri u))).
  Proof.
    intros s F t k T G u x H Uf HT K Fx Iu. destruct (tile_in s F t k T H HT) as (NT & It & Ot).
    assert (Ug : unk (negb s) G).
    { destruct (ct_tag C (negb s) G u K) as [Ug | (Ng & _)]; [ exact Ug | exfalso ]. destruct (twin (negb s) G u K Ng) as (F2 & t2 & H2 & N2 & A & _ & _ & S). rewrite negb_involutive in *.
      apply N2. replace F2 with F; [ exact Uf | ]. apply (face_apart s F F2 t t2 x H H2 (Ot x Fx)). apply S, Iu. }
    split; [ exact Ug | ].
    destruct (meet_cases s F t G u x H Uf K Ug (It x (feature_inside _ _ _ Fx)) Iu) as [(v & V & _ & E) | [(i & j & Nij & B & N) | (_ & A & Z)] ]; [ exfalso | exfalso | auto ].
    - assert (Hv : has_vertex T v) by (apply (tile_vertex s F t k T v H HT V); apply (inside_same _ x _ E); exact (feature_inside _ _ _ Fx)).
      destruct (corner_feature pos T v Hv) as (m & Fm & Bm & _). apply (feature_same _ _ _ _ (same_sym _ _ E)) in Fm. pose proof (feature_unique _ _ _ _ NT Fx Fm). subst m. discriminate Bm.
    - destruct (proj1 (neighbours_edge s F G i j N)) as (l & T' & HT' & Hi & Hj).
      destruct (edge_feature pos T' i j x Hi Hj Nij B) as (m & Fm & Bm & _).
      assert (k = l) by exact (tile_apart s F t k l T T' x H HT HT' Fx (feature_inside _ _ _ Fm)). subst l. unfold tile in HT, HT'. rewrite HT in HT'. injection HT' as <-.
      pose proof (feature_unique _ _ _ _ NT Fx Fm). subst m. discriminate Bm.
  Qed.

  (** A piece with an inner point in a face of the other mesh lies in it. *)
  Lemma lies_in : forall s F t k T G u x, fc s F t -> unk s F -> tile s F k T -> fc (negb s) G u ->
    in_feature (tri T) full x -> inside (tri u) x -> forall w, inside (tri T) w -> inside (tri u) w.
  Proof.
    intros s F t k T G u x H Uf HT K Fx Iu w Iw. destruct (tile_in s F t k T H HT) as (NT & It & Ot).
    pose proof (ct_nd C _ _ _ H) as Nt. pose proof (ct_nd C _ _ _ K) as Nu.
    destruct (inner s F t k T G u x H Uf HT K Fx Iu) as (Ug & Fu & Z).
    destruct (zero3_dec (vsub w x)) as [Zd | Nd].
    { apply (inside_same _ x); [ | exact Iu ]. destruct Zd as (A & B & D). destruct w as [ [? ?] ?], x as [ [? ?] ?]. coords. repeat split; lra. }
    assert (D : dir (tri u) full (vsub w x)).
    { apply plane_dir; [ exact Nu | ]. apply (parallel_planes (tri t) (tri u) _ Nt Nu Z). apply inside_plane; apply It; [ exact Iw | exact (feature_inside _ _ _ Fx) ]. }
    destruct (descend (tri u) (tri u) full full x (vsub w x) Fu Fu D D Nd) as (e & m & n & Pe & Fm & Fn & L).
    pose proof (feature_unique _ _ _ _ Nu Fm Fn). subst n.
    destruct (Qlt_le_dec e 1) as [E1 | E1].
    - exfalso. assert (Fx' : in_feature (tri T) full (mix w x (1 - e))) by (apply toward; [ lra | lra | exact Iw | exact Fx ]).
      assert (Es : same_point (move x (vsub w x) e) (mix w x (1 - e))) by (unfold move, mix; coords; repeat split; ring).
      apply (feature_same _ _ _ _ Es) in Fm. destruct (inner s F t k T G u _ H Uf HT K Fx' (feature_inside _ _ _ Fm)) as (_ & Fu' & _).
      pose proof (feature_unique _ _ _ _ Nu Fm Fu'). subst m. cbn in L. lia.
    - apply (inside_same _ (mix x (move x (vsub w x) e) (1 / e))).
      + unfold move, mix. coords. repeat split; field; lra.
      + apply inside_mix; [ split; [ apply Qle_shift_div_l; lra | apply Qle_shift_div_r; lra ] | exact Iu | exact (feature_inside _ _ _ Fm) ].
  Qed.
End Cut.
