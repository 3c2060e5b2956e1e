(** Geometry vocabulary for stating properties of reference cells; independent of the code. *)
From Coq Require Import Reals Arith Lia Lra List.
Import ListNotations.
Open Scope R_scope.

(** Coordinate j of vertex k. *)
Definition co (vs : list (list R)) (k j : nat) : R := nth j (nth k vs []) 0.

(** [n] points with [d] coordinates each. *)
Definition points (n d : nat) (vs : list (list R)) : Prop :=
  length vs = n /\ Forall (fun v => length v = d) vs.

Definition sumR (l : list R) : R := fold_right Rplus 0 l.

(** p = sum_k w_k v_k with weights of sum 1. *)
Definition affine_comb (w : list R) (vs : list (list R)) (p : list R) : Prop :=
  length w = length vs /\ sumR w = 1 /\
  forall j, (j < length p)%nat ->
    nth j p 0 = sumR (map (fun wv => fst wv * nth j (snd wv) 0) (combine w vs)).

(** p is in the convex hull (the affine hull) of the points vs. *)
Definition in_hull (vs : list (list R)) (p : list R) : Prop :=
  exists w, affine_comb w vs p /\ Forall (fun a => 0 <= a) w.
Definition in_affine_hull (vs : list (list R)) (p : list R) : Prop := exists w, affine_comb w vs p.
(** p is a convex combination with all weights positive. *)
Definition in_interior (vs : list (list R)) (p : list R) : Prop :=
  exists w, affine_comb w vs p /\ Forall (fun a => 0 < a) w.

(** v_i + v_l = v_j + v_k *)
Definition parallelogram (vs : list (list R)) (i j k l : nat) : Prop :=
  forall c, co vs i c + co vs l c = co vs j c + co vs k c.

(** Determinants of the edge vectors from vertex 0 to vertices i, j (and k). *)
Definition edge_det2 (vs : list (list R)) (i j : nat) : R :=
  let a c := co vs i c - co vs 0 c in
  let b c := co vs j c - co vs 0 c in
  a 0%nat * b 1%nat - a 1%nat * b 0%nat.
Definition edge_det3 (vs : list (list R)) (i j k : nat) : R :=
  let a c := co vs i c - co vs 0 c in
  let b c := co vs j c - co vs 0 c in
  let d c := co vs k c - co vs 0 c in
  a 0%nat * (b 1%nat * d 2%nat - b 2%nat * d 1%nat)
  - a 1%nat * (b 0%nat * d 2%nat - b 2%nat * d 0%nat)
  + a 2%nat * (b 0%nat * d 1%nat - b 1%nat * d 0%nat).

(** A subset S of the vertices (given by numbers) is a face of the convex hull of the points vs:
    some linear functional takes its maximum over the vertices exactly on S. *)
Definition dotR (l v : list R) : R := sumR (map (fun ab => fst ab * snd ab) (combine l v)).
Definition exposed (vs : list (list R)) (d : nat) (S : list nat) : Prop :=
  exists (l : list R) (c : R), length l = d /\
    forall k, (k < length vs)%nat ->
      (In k S -> dotR l (nth k vs []) = c) /\ (~ In k S -> dotR l (nth k vs []) < c).

(** Strictly increasing list of numbers below n. *)
Fixpoint increasing_from (a : nat) (l : list nat) : Prop :=
  match l with [] => True | b :: l' => (a <= b)%nat /\ increasing_from (S b) l' end.
Definition sorted_subset (n : nat) (S : list nat) : Prop :=
  increasing_from 0 S /\ Forall (fun k => (k < n)%nat) S.

(** Integration: [iterated lims f g]: integrating f over the limits, first entry innermost, gives g.
    (The integrals themselves are in PropertiesReferences.v, stated with Coquelicot.) *)
Definition upd (e : nat -> R) (v : nat) (s : R) : nat -> R := fun k => if Nat.eqb k v then s else e k.
