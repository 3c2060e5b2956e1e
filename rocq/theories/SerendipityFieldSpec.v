(** What the H(curl) and H(div) serendipity elements (SerendipityFieldModel.v) are required to satisfy. *)
From Coq Require Import Arith Reals List.
From Verif Require Import Base PolyLib ReferencesSpec PointsModel PointsSpec.
Import ListNotations.
Open Scope R_scope.

(** Homogeneous polynomials of degree n in d variables. *)
Definition H_space (d n : nat) : sfun -> Prop := poly_space (fun m => length m = d /\ mdeg m = n).
(** Homogeneous polynomials of degree n in three variables in which variable i does not occur. *)
Definition H_without (i n : nat) : sfun -> Prop := poly_space (fun m => length m = 3%nat /\ mdeg m = n /\ nth i m 0%nat = 0%nat).
(** H(div) fields on the square: polynomials of degree at most n, plus the multiples of (x^(n+1), (n+1) x^n y) and of
    ((n+1) x y^n, y^(n+1)). *)
Definition sdiv_space2 (n : nat) (f : component_fn) : Prop :=
  exists p a b, (forall c, (c < 2)%nat -> P_space 2 n (p c)) /\
  (forall v, f (0%nat, v) = p 0%nat v + a * v 0%nat ^ (n + 1) + b * (INR (n + 1) * v 0%nat * v 1%nat ^ n)) /\
  (forall v, f (1%nat, v) = p 1%nat v + a * (INR (n + 1) * v 0%nat ^ n * v 1%nat) + b * v 1%nat ^ (n + 1)) /\
  (forall c v, (2 <= c)%nat -> f (c, v) = 0).
(** H(curl) fields on the square: polynomials of degree at most n, plus the multiples of ((n+1) x^n y, - x^(n+1)) and of
    (y^(n+1), (n+1) x y^n). *)
Definition scurl_space2 (n : nat) (f : component_fn) : Prop :=
  exists p a b, (forall c, (c < 2)%nat -> P_space 2 n (p c)) /\
  (forall v, f (0%nat, v) = p 0%nat v + a * (INR (n + 1) * v 0%nat ^ n * v 1%nat) + b * v 1%nat ^ (n + 1)) /\
  (forall v, f (1%nat, v) = p 1%nat v + a * (- v 0%nat ^ (n + 1)) + b * (INR (n + 1) * v 0%nat * v 1%nat ^ n)) /\
  (forall c v, (2 <= c)%nat -> f (c, v) = 0).
(** H(div) fields on the cube: polynomials of degree at most n, plus the curls of (0, xz, -xy) h1(y, z), (yz, 0, -xy) h2(x, z) and
    (yz, -xz, 0) h3(x, y) with homogeneous polynomials h1, h2, h3 of degree n. *)
Definition sdiv_space3 (n : nat) (f : component_fn) : Prop :=
  exists p h1 h2 h3, (forall c, (c < 3)%nat -> P_space 3 n (p c)) /\ H_without 0 n h1 /\ H_without 1 n h2 /\ H_without 2 n h3 /\
  (forall v, f (0%nat, v) = p 0%nat v + v 0%nat * (- INR (n + 2) * h1 v - h2 v + h3 v)) /\
  (forall v, f (1%nat, v) = p 1%nat v + v 1%nat * (h1 v + INR (n + 2) * h2 v + h3 v)) /\
  (forall v, f (2%nat, v) = p 2%nat v + v 2%nat * (h1 v - h2 v - INR (n + 2) * h3 v)) /\
  (forall c v, (3 <= c)%nat -> f (c, v) = 0).
Definition sdiv_space (d n : nat) : component_fn -> Prop := match d with 2%nat => sdiv_space2 n | _ => sdiv_space3 n end.
(** The numbers of degrees of freedom: on the facets, and inside. *)
Definition sdiv_dim (d n : nat) : nat := (2 * d * P_dim (d - 1) n + (if 2 <=? n then d * P_dim d (n - 2) else 0))%nat.
