(** Model of symfem/elements/direct_serendipity.py on the default quadrilateral.  A function is a function of the point; real division
    stands for sympy's, the denominators vanish at x = -1 and y = -1 only. *)
From Coq Require Import String Arith Reals List.
From Verif Require Import Base PolyLib PolySetsModel ReferencesModel PointsModel.
Import ListNotations.
Local Open Scope string_scope.
Local Open Scope R_scope.
Local Open Scope list_scope.

(** DirectElement (finite_element.py:880-908): the basis functions, each with the dimension and number of its entity
    (finite_element.py:987-993) *)
Definition direct_element := list ((point -> R) * (nat * nat)).

(** direct_serendipity.py:48-54: lambda_h, r_h, lambda_34, and with x[0] in place of x[1] lambda_v, r_v, lambda_12; the
    parameters of lines 36-46 are alpha = 1, beta = 2, gamma = 1, xi = 2, eta = 1 in both directions *)
Definition ds_lambda (t : R) : R := 1 * (1 - t) + 2 * t + 1.
Definition ds_r (t : R) : R := -2 * t / ((1 - t) / 2 + t / 1).
Definition ds_mixed (t : R) : R := 2 * (1 - t) + 1 * t.

(** direct_serendipity.py:31-32 *)
Definition ds_vertices : direct_element :=
  combine (flat_map (fun a : point -> R => map (fun b : point -> R => fun v => a v * b v) [fun v => 1 - v 0%nat; fun v => v 0%nat]) [fun v => 1 - v 1%nat; fun v => v 1%nat])
    (map (fun v => (0, v)%nat) (range 4)).
(** direct_serendipity.py:56-63 with k = 1, l = 0, near = (1, 1), far = (1, 2) and 65-72 with k = 0, l = 1, near = (1, 0),
    far = (1, 3) *)
Definition ds_edges (order k l : nat) (near far : nat * nat) : direct_element :=
  map (fun j => ((fun v => (1 - v k) * v k * ds_lambda (v k) ^ j), near)) (range (order - 1)) ++
  map (fun j => ((fun v => (1 - v k) * v k * ds_mixed (v l) * ds_lambda (v k) ^ j), far)) (range (order - 2)) ++
  [((fun v => (1 - v k) * v k * ds_r (v l) * ds_lambda (v k) ^ (order - 2)), far)].
(** direct_serendipity.py:20-80; DPC (dpc.py) is modelled in PointsModel.v.  create_element calls it with order at least 1. *)
Definition make_direct_serendipity (reference : reference) (order : nat) : res direct_element :=
  let edges := if (2 <=? order)%nat then ds_edges order 1 0 (1, 1)%nat (1, 2)%nat ++ ds_edges order 0 1 (1, 0)%nat (1, 3)%nat else [] in
  rbind (if (4 <=? order)%nat
         then rmap (map (fun f : component_fn => ((fun v => f (0%nat, v) * v 0%nat * v 1%nat * (1 - v 0%nat) * (1 - v 1%nat)), (2, 0)%nat)))
                (rbind (make_dpc reference 4 "equispaced") element_basis)
         else Ok []) (fun interior =>
  Ok (ds_vertices ++ edges ++ interior)).
