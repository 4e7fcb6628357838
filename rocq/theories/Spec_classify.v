(** * Specification of tag propagation and global classification *)
From Coq Require Import List Arith Bool.
From Verif Require Import Model_base Model_soup Model_mesh Model_classify Spec_mesh.
Import ListNotations.

Section Flood.
  Variables P D : Type.
  Variable m : mesh P (mixed_data D).
  Variable border : list edge.

  (** Face [g] has tag [t] in [m]. *)
  Definition tagged (g : nat) (t : face_tag) : Prop :=
    exists d, nth_error (m_data m) g = Some d /\ tag d = t.

  (** [g] can be reached from [seed] by repeatedly crossing a non-border edge
      into an UNKNOWN face. *)
  Inductive reached (seed : nat) : nat -> Prop :=
  | reached_seed : reached seed seed
  | reached_step : forall f g, reached seed f -> neighbour (m_faces m) border f g ->
      tagged g UNKNOWN -> reached seed g.

  (** From the seed or a face flooded from it one gets, across a non-border
      edge, to a face with a tag other than UNKNOWN and the seed's. *)
  Definition conflict (seed : nat) (t : face_tag) : Prop :=
    exists f g t', reached seed f /\ neighbour (m_faces m) border f g /\
      tagged g t' /\ t' <> UNKNOWN /\ t' <> t.

  (** [m'] is [m] with the tag of the faces satisfying [changed] replaced by
      [t] and nothing else changed. *)
  Definition retagged (changed : nat -> Prop) (t : face_tag) (m' : mesh P (mixed_data D)) : Prop :=
    m_points m' = m_points m /\ m_faces m' = m_faces m /\
    indices m' = indices m /\ face_indices m' = face_indices m /\
    length (m_data m') = length (m_data m) /\
    forall g d, nth_error (m_data m) g = Some d ->
      (changed g -> nth_error (m_data m') g = Some (mk_mixed (from_left d) t (data d))) /\
      (~ changed g -> nth_error (m_data m') g = Some d).

  (** Every face's tag is decided the same way as that of its neighbours:
      UNKNOWN faces only touch UNKNOWN faces across non-border edges. *)
  Definition unknown_closed : Prop :=
    forall f g, neighbour (m_faces m) border f g -> tagged f UNKNOWN -> tagged g UNKNOWN.
End Flood.
Arguments tagged {P D}.
Arguments reached {P D}.
Arguments conflict {P D}.
Arguments retagged {P D}.
Arguments unknown_closed {P D}.

(** A mixed mesh as it is after [finalize]. *)
Definition wf_mixed_mesh {P D} (m : mesh P (mixed_data D)) : Prop :=
  length (m_data m) = length (m_faces m) /\
  Forall (fun t => let '(a, b, c) := t in
            a < length (m_points m) /\ b < length (m_points m) /\ c < length (m_points m)) (m_faces m) /\
  nondegenerate (m_faces m).

(** The other operand is asked for the side on which the centroid of face [f] lies; the
    outcome is [r]. *)
Definition face_query {P D} (centroid : P -> P -> P -> P) (side_left side_right : P -> res oriented_side)
    (m : mesh P (mixed_data D)) (f : nat) (r : res oriented_side) : Prop :=
  exists d a b c pa pb pc,
    nth_error (m_data m) f = Some d /\
    nth_error (m_faces m) f = Some (a, b, c) /\
    nth_error (m_points m) a = Some pa /\ nth_error (m_points m) b = Some pb /\
    nth_error (m_points m) c = Some pc /\
    r = (if from_left d then side_right else side_left) (centroid pa pb pc).

(** The centroid of face [f] lies on side [s] of the other operand. *)
Definition face_side {P D} (centroid : P -> P -> P -> P) (side_left side_right : P -> res oriented_side)
    (m : mesh P (mixed_data D)) (f : nat) (s : oriented_side) : Prop :=
  face_query centroid side_left side_right m f (Ok s).

(** [EXTERIOR] on the positive side, [INTERIOR] on the negative side. *)
Definition tag_of_side (s : oriented_side) (t : face_tag) : Prop :=
  (s = POSITIVE_SIDE /\ t = EXTERIOR) \/ (s = NEGATIVE_SIDE /\ t = INTERIOR).
