(** * Overlapping faces *)
From Coq Require Import List Arith QArith.
From Verif Require Import Model_base Model_soup Model_geometry Spec_defects Spec_ffi.
Import ListNotations.
Local Open Scope nat_scope.

Section Overlap.
  Context {P D : Type}.
  Variable coords : P -> vec3.
  Variable m : soup P D.

  (** A point of space on a face. *)
  Definition on_face (fi : nat) (x : vec3) : Prop :=
    exists p q r, face_corners m fi (p, q, r) /\ inside (coords p, coords q, coords r) x.
  (** A corner of a face. *)
  Definition corner_of (fi : nat) (p : P) : Prop :=
    exists q r s, face_corners m fi (q, r, s) /\ (p = q \/ p = r \/ p = s).
  Definition shared (fi fj : nat) (p : P) : Prop := corner_of fi p /\ corner_of fj p.
  (** A face whose corners are on a line (two equal corners included). *)
  Definition degenerate_face (fi : nat) : Prop :=
    exists p q r, face_corners m fi (p, q, r) /\ collinear (coords p) (coords q) (coords r).
  (** Two faces overlap: they have a common point that is neither a shared corner nor on
      a shared edge (the segment between two shared corners). *)
  Definition overlap (fi fj : nat) : Prop :=
    exists x, on_face fi x /\ on_face fj x /\
      forall p q, shared fi fj p -> shared fi fj q -> ~ on_segment (coords p) (coords q) x.
End Overlap.
