(** What the H(curl) serendipity element on the cube (SerendipityFieldModel.v) is required to satisfy. *)
From Coq Require Import Arith Reals List.
From Verif Require Import Base PolyLib PolyVec ReferencesSpec PointsModel PointsSpec SerendipitySpec SerendipityFieldSpec.
Import ListNotations.
Open Scope R_scope.

(** H(curl) fields on the cube: polynomials of degree at most n, plus the multiples of (0, xz, -xy), (yz, 0, -xy) and (yz, -xz, 0)
    by homogeneous polynomials h1(y, z), h2(x, z) and h3(x, y) of degree n - 1, plus the gradients of the polynomials of superlinear
    degree at most n + 1. *)
Definition scurl_space3 (n : nat) (f : component_fn) : Prop :=
  exists p h1 h2 h3 s g, (forall c, (c < 3)%nat -> P_space 3 n (p c)) /\ H_without 0 (n - 1) h1 /\ H_without 1 (n - 1) h2 /\ H_without 2 (n - 1) h3 /\
  serendipity_space 3 (n + 1) s /\ (forall i v, (i < 3)%nat -> is_partial i s v (g i v)) /\
  (forall v, f (0%nat, v) = p 0%nat v + v 1%nat * v 2%nat * (h2 v + h3 v) + g 0%nat v) /\
  (forall v, f (1%nat, v) = p 1%nat v + v 0%nat * v 2%nat * (h1 v - h3 v) + g 1%nat v) /\
  (forall v, f (2%nat, v) = p 2%nat v - v 0%nat * v 1%nat * (h1 v + h2 v) + g 2%nat v) /\
  (forall c v, (3 <= c)%nat -> f (c, v) = 0).
(** The numbers of degrees of freedom: on the edges, on the faces, and inside. *)
Definition scurl_dim3 (n : nat) : nat :=
  (12 * (n + 1) + (if 2 <=? n then 6 * (2 * P_dim 2 (n - 2)) else 0) + (if 4 <=? n then 3 * P_dim 3 (n - 4) else 0))%nat.
