(** Specification vocabulary for the tables of orthogonal polynomials: independent of the model. *)
From Coq Require Import String Arith ZArith Reals Bool List.
From Verif Require Import Base PolyLib PolyVec.
Import ListNotations.
Open Scope R_scope.

(** The multi-indices of length d and total s, the first entry decreasing. *)
Fixpoint homogeneous (d s : nat) : list (list nat) :=
  match d with
  | O => []
  | S O => [[s]]
  | S d' => flat_map (fun u => map (cons (s - u)%nat) (homogeneous d' u)) (range (s + 1))
  end.
(** All multi-indices of length d and total at most n: by total, then as above. *)
Definition multi_indices (d n : nat) : list (list nat) := flat_map (homogeneous d) (range (n + 1)).
(** one more derivative in direction k *)
Fixpoint incr (m : list nat) (k : nat) : list nat :=
  match m, k with
  | x :: m', O => S x :: m'
  | x :: m', S k' => x :: incr m' k'
  | [], _ => []
  end.
(** the multi-index counting the occurrences of each axis in a sequence of directions *)
Definition counts (d : nat) (l : list nat) : list nat := map (fun k => count_occ Nat.eq_dec l k) (range d).
(** [g] is obtained from [f], on the set D, by differentiating successively with respect to the
    variables number l (the last of the list first). *)
Fixpoint iterated (D : point -> Prop) (vars l : list nat) (f g : point -> R) : Prop :=
  match l with
  | [] => forall v, D v -> g v = f v
  | k :: l' => exists h, iterated D vars l' f h /\ forall v, D v -> is_partial (nth k vars 0%nat) h v (g v)
  end.
(** entry [d][i] of a list of lists *)
Definition at2 {A} (t : list (list A)) (d i : nat) : option A :=
  match nth_error t d with Some row => nth_error row i | None => None end.

(** the cells with orthogonal bases: dimension, number of polynomials *)
Definition cells : list (string * (nat * (nat -> nat))) :=
  [("interval", (1, fun n => n + 1));
   ("triangle", (2, fun n => (n + 1) * (n + 2) / 2));
   ("quadrilateral", (2, fun n => (n + 1) ^ 2));
   ("tetrahedron", (3, fun n => (n + 1) * (n + 2) * (n + 3) / 6));
   ("hexahedron", (3, fun n => (n + 1) ^ 3));
   ("prism", (3, fun n => (n + 1) * (n + 1) * (n + 2) / 2));
   ("pyramid", (3, fun n => (n + 1) * (n + 2) * (2 * n + 3) / 6))]%nat%string.
(** where the polynomials are looked at: everywhere, except that the functions of the pyramid are
    rational functions with a pole at the apex z = 1 *)
Definition domain (cell : string) (vars : list nat) (v : point) : Prop :=
  cell = "pyramid"%string -> v (nth 2 vars 0%nat) <> 1.
