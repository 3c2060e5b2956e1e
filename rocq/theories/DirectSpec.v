(** What is required of the direct serendipity element (DirectModel.v). *)
From Coq Require Import Arith Reals List.
From Verif Require Import Base PolyLib LinAlg DirectModel.
Import ListNotations.
Local Open Scope R_scope.

(** the combination of the functions of the element with coefficients a *)
Definition direct_combination (e : direct_element) (a : nat -> R) (v : point) : R :=
  sum (length e) (fun i => a i * fst (nth i e ((fun _ => 0), (0, 0)%nat)) v).
(** a point of the unit square *)
Definition in_square (v : point) : Prop := 0 <= v 0%nat <= 1 /\ 0 <= v 1%nat <= 1.
(** no combination but the trivial one vanishes on the square *)
Definition independent_on_square (e : direct_element) : Prop :=
  forall a, (forall v, in_square v -> direct_combination e a v = 0) -> forall i, (i < length e)%nat -> a i = 0.
(** some combination of the functions agrees with f on the square *)
Definition reproduces (e : direct_element) (f : point -> R) : Prop :=
  exists a, forall v, in_square v -> f v = direct_combination e a v.

(** The edges of the unit square in their order: the numbers of their vertices; vertex i has coordinates i mod 2, i / 2. *)
Definition square_edge (e : nat) : nat * nat := nth e [(0, 1); (0, 2); (1, 3); (2, 3)]%nat (0, 0)%nat.
Definition square_vertex (i c : nat) : R := if Nat.testbit i c then 1 else 0.
(** the point of edge e with parameter s *)
Definition edge_point (e : nat) (s : R) (c : nat) : R :=
  square_vertex (fst (square_edge e)) c + s * (square_vertex (snd (square_edge e)) c - square_vertex (fst (square_edge e)) c).
(** C0: a function that belongs to none of an edge and its vertices vanishes on the edge, so that a function on two neighbouring
    cells is continuous if the coefficients that belong to the common edge and its vertices agree. *)
Definition direct_C0 (e : direct_element) : Prop :=
  forall f k n i, In (f, (k, n)) e -> (i < 4)%nat -> (k, n) <> (1, i)%nat -> (k, n) <> (0, fst (square_edge i))%nat -> (k, n) <> (0, snd (square_edge i))%nat ->
    forall s, 0 <= s <= 1 -> f (edge_point i s) = 0.
