(** * Specification of the radial order *)
From Coq Require Import QArith Reals Qreals.
From Verif Require Import Model_base Model_geometry Model_local.
Local Open Scope Q_scope.

(** The faces around one edge: their bins were computed by the constructor and
    the direction is determined by the third vertex. *)
Definition same_edge (S : around -> Prop) : Prop :=
  (forall f, S f -> radial_bin_of (r_uv f) = Ok (radial_bin f)) /\
  (forall f g, S f -> S g -> vi_r f = vi_r g -> r_uv f = r_uv g).

(** [f] lies at angle [theta] (in [[0, 2 PI)), counter-clockwise from the first
    axis) when its coordinates are measured in units [1/alpha] and [1/beta] on
    the two axes. *)
Definition at_angle (alpha beta : R) (f : around) (theta : R) : Prop :=
  (0 <= theta < 2 * PI)%R /\
  exists rho, (0 < rho)%R /\
    (alpha * Q2R (fst (r_uv f)) = rho * cos theta)%R /\
    (beta * Q2R (snd (r_uv f)) = rho * sin theta)%R.

(** Positive multiples of each other. *)
Definition same_direction (f g : around) : Prop :=
  exists l : Q, 0 < l /\ fst (r_uv f) == l * fst (r_uv g) /\ snd (r_uv f) == l * snd (r_uv g).
