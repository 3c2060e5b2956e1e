(** Model of /repo/symfem/polynomials/polysets.py.

    The variables are the default x = (x0, x1, x2) (/repo/symfem/symbols.py:9);
    the optional argument [variables] only renames them and is not modelled.
    Orders are natural numbers (python ranges over negative numbers are empty; a
    negative order is not modelled).  Every natural-number subtraction below
    mirrors a python subtraction whose result is non-negative inside the loop
    bounds it occurs in. *)
From Coq Require Import String Arith ZArith Reals List.
From Verif Require Import Base PolyLib.
Import ListNotations.
Open Scope nat_scope.

(** A vector function: list of polynomial components. *)
Definition vpoly := list zpoly.
Definition veval (F : vpoly) : vfun := fun v => map (fun p => zeval p v) F.

(** polysets.py:12-40 *)
Definition polynomial_set_1d (dim order : nat) : res (list mono) :=
  match dim with
  | 1 => Ok (map (fun i => [i]) (range (order + 1)))
  | 2 => Ok (flat_map (fun j => map (fun i => [i; j]) (range (order + 1 - j))) (range (order + 1)))
  | 3 => Ok (flat_map (fun k => flat_map (fun j => map (fun i => [i; j; k])
               (range (order + 1 - k - j))) (range (order + 1 - k))) (range (order + 1)))
  | _ => Err ValueError
  end.

(** The comprehension shared by the four *_set_vector functions:
    polysets.py:58-62, 205-209, 331-335, 493-497. *)
Definition vectorise (range_dim : nat) (set1d : list mono) : list vpoly :=
  flat_map (fun p => map (fun i =>
     map (fun j => if i =? j then [(1%Z, p)] else []) (range range_dim)) (range range_dim)) set1d.

(** polysets.py:43-62 *)
Definition polynomial_set_vector (domain_dim range_dim order : nat) : res (list vpoly) :=
  rmap (vectorise range_dim) (polynomial_set_1d domain_dim order).

(** polysets.py:65-98 *)
Definition Hdiv_polynomials (domain_dim range_dim order : nat) : res (list vpoly) :=
  if negb (domain_dim =? range_dim) then Err AssertionError else
  match domain_dim with
  | 2 => Ok (map (fun j => [ [(1%Z, [1 + (order - 1 - j); j])];
                             [(1%Z, [order - 1 - j; 1 + j])] ]) (range order))
  | 3 => Ok (flat_map (fun j => map (fun k =>
              let a := order - 1 - j - k in
              [ [(1%Z, [1 + a; j; k])]; [(1%Z, [a; 1 + j; k])]; [(1%Z, [a; j; 1 + k])] ])
              (range (order - j))) (range order))
  | _ => Err ValueError
  end.

(** polysets.py:101-165 *)
Definition Hcurl_polynomials (domain_dim range_dim order : nat) : res (list vpoly) :=
  if negb (domain_dim =? range_dim) then Err AssertionError else
  match domain_dim with
  | 2 => Ok (map (fun j => [ [(1%Z, [order - 1 - j; j + 1])];
                             [((-1)%Z, [order - j; j])] ]) (range order))
  | 3 => Ok (
      flat_map (fun n => map (fun m =>
          [ [(1%Z, [m - 1; n; order - m - n + 1])]; []; [((-1)%Z, [m; n; order - m - n])] ])
          (range2 1 (order + 1 - n))) (range order)
      ++ flat_map (fun m => map (fun n =>
          [ []; [(1%Z, [m; n - 1; order - m - n + 1])]; [((-1)%Z, [m; n; order - m - n])] ])
          (range2 1 (order + 1 - m))) (range order)
      ++ map (fun n =>
          [ [(1%Z, [order - n; n; 0])]; [((-1)%Z, [order + 1 - n; n - 1; 0])]; [] ])
          (range2 1 (order + 1)))
  | _ => Err ValueError
  end.

(** zip(variables, j): only as many exponents as there are variables (three)
    are used: polysets.py:184, 231, 260, 310. *)
Definition zip_vars (j : list nat) : mono := firstn 3 j.

(** polysets.py:168-187 *)
Definition quolynomial_set_1d (dim order : nat) : list mono :=
  map zip_vars (product (repeat (range (order + 1)) dim)).

(** polysets.py:190-209 *)
Definition quolynomial_set_vector (domain_dim range_dim order : nat) : list vpoly :=
  vectorise range_dim (quolynomial_set_1d domain_dim order).

(** polysets.py:212-234.  j[:d] + (order,) + j[d:] *)
Definition Hdiv_quolynomials (domain_dim range_dim order : nat) : res (list vpoly) :=
  if negb (domain_dim =? range_dim) then Err AssertionError else
  Ok (flat_map (fun d => map (fun j =>
       let p := zip_vars (firstn d j ++ [order] ++ skipn d j) in
       map (fun i => if i =? d then [(1%Z, p)] else []) (range domain_dim))
       (product (repeat (range order) (domain_dim - 1)))) (range domain_dim)).

(** polysets.py:237-263 *)
Definition Hcurl_quolynomials (domain_dim range_dim order : nat) : res (list vpoly) :=
  if negb (domain_dim =? range_dim) then Err AssertionError else
  Ok (flat_map (fun d => flat_map (fun j =>
       if existsb (Nat.eqb order) j then
         let p := zip_vars j in
         [map (fun i => if i =? d then [(1%Z, p)] else []) (range domain_dim)]
       else [])
       (product (map (fun i => if i =? d then range order else range (order + 1)) (range domain_dim))))
       (range domain_dim)).

(** polysets.py:266-290.  The recursion is on the number [rem] of entries still
    to be chosen, rem = dim - len(done). *)
Fixpoint serendipity_indices_rec (total linear rem : nat) (done : list nat) : list (list nat) :=
  match rem with
  | 0 => if linear <=? count_occ Nat.eq_dec done 1 then [done] else []
  | S rem' =>
    match rem' with
    | 0 => serendipity_indices_rec total linear rem' (done ++ [total - list_sum done])
    | _ => flat_map (fun i => serendipity_indices_rec total linear rem' (done ++ [i]))
             (range (total - list_sum done + 1))
    end
  end.
Definition serendipity_indices (total linear dim : nat) : list (list nat) :=
  serendipity_indices_rec total linear dim [].

(** polysets.py:293-313 *)
Definition serendipity_set_1d (dim order : nat) : list mono :=
  flat_map (fun s => map zip_vars (serendipity_indices s (s - order) dim))
    (range2 (order + 1) (order + dim + 1)).

(** polysets.py:316-335 *)
Definition serendipity_set_vector (domain_dim range_dim order : nat) : list vpoly :=
  vectorise range_dim (serendipity_set_1d domain_dim order).

(** Formal partial derivative of a polynomial with respect to variable [i]:
    sympy's diff on a sum of monomials, as used by VectorFunction.curl
    (/repo/symfem/functions.py:1225-1238) and ScalarFunction.diff (:674-683).
    The sympy engine is replaced by the term-wise rule. *)
Fixpoint dec_at (i : nat) (m : mono) : mono :=
  match m, i with
  | [], _ => []
  | e :: m', 0 => (e - 1) :: m'
  | e :: m', S i' => e :: dec_at i' m'
  end.
Definition zdiff (i : nat) (p : zpoly) : zpoly :=
  map (fun t => ((fst t * Z.of_nat (nth i (snd t) 0%nat))%Z, dec_at i (snd t))) p.
Definition zneg (p : zpoly) : zpoly := map (fun t => ((- fst t)%Z, snd t)) p.
Definition zadd (p q : zpoly) : zpoly := p ++ q.

(** Curl of a vector function with three components: functions.py:1225-1238. *)
Definition vcurl (F : vpoly) : vpoly :=
  let c i := nth i F [] in
  [ zadd (zdiff 1 (c 2)) (zneg (zdiff 2 (c 1)));
    zadd (zdiff 2 (c 0)) (zneg (zdiff 0 (c 2)));
    zadd (zdiff 0 (c 1)) (zneg (zdiff 1 (c 0))) ].

(** polysets.py:338-392 *)
Definition Hdiv_serendipity (domain_dim range_dim order : nat) : res (list vpoly) :=
  if negb (domain_dim =? range_dim) then Err AssertionError else
  match domain_dim with
  | 2 => Ok [ [ [(1%Z, [order + 1; 0])]; [(Z.of_nat (order + 1), [order; 1])] ];
              [ [(Z.of_nat (order + 1), [1; order])]; [(1%Z, [0; order + 1])] ] ]
  | 3 => Ok (map vcurl (
      if order =? 0 then
        [ [ []; [(1%Z, [1; 0; 1])]; [((-1)%Z, [1; 1; 0])] ];
          [ [(1%Z, [0; 1; 1])]; []; [((-1)%Z, [1; 1; 0])] ] ]
      else
        flat_map (fun i =>
          [ [ []; [(1%Z, [1; i; 1 + (order - i)])]; [((-1)%Z, [1; 1 + i; order - i])] ];
            [ [(1%Z, [i; 1; 1 + (order - i)])]; []; [((-1)%Z, [1 + i; 1; order - i])] ];
            [ [(1%Z, [i; 1 + (order - i); 1])]; [((-1)%Z, [1 + i; order - i; 1])]; [] ] ])
          (range (order + 1))))
  | _ => Err NotImplementedError
  end.

(** polysets.py:395-453 *)
Definition Hcurl_serendipity (domain_dim range_dim order : nat) : res (list vpoly) :=
  if negb (domain_dim =? range_dim) then Err AssertionError else
  match domain_dim with
  | 2 => Ok [ [ [(Z.of_nat (order + 1), [order; 1])]; [((-1)%Z, [order + 1; 0])] ];
              [ [(1%Z, [0; order + 1])]; [(Z.of_nat (order + 1), [1; order])] ] ]
  | 3 => Ok (
      (if order =? 1 then
        [ [ []; [(1%Z, [1; 0; 1])]; [((-1)%Z, [1; 1; 0])] ];
          [ [(1%Z, [0; 1; 1])]; []; [((-1)%Z, [1; 1; 0])] ] ]
      else
        flat_map (fun i =>
          [ [ [(1%Z, [i; 1; 1 + (order - 1 - i)])]; []; [((-1)%Z, [1 + i; 1; order - 1 - i])] ];
            [ []; [(1%Z, [1; i; 1 + (order - 1 - i)])]; [((-1)%Z, [1; 1 + i; order - 1 - i])] ];
            [ [(1%Z, [i; 1 + (order - 1 - i); 1])]; [((-1)%Z, [1 + i; order - 1 - i; 1])]; [] ] ])
          (range order))
      ++ map (fun p => map (fun i => zdiff i [(1%Z, p)]) (range 3))
           (serendipity_set_1d domain_dim (order + 1)))
  | _ => Err NotImplementedError
  end.

(** polysets.py:456-475 *)
Definition prism_polynomial_set_1d (dim order : nat) : res (list mono) :=
  if negb (dim =? 3) then Err AssertionError else
  Ok (flat_map (fun k => flat_map (fun j => map (fun i => [i; j; k])
        (range (order + 1 - j))) (range (order + 1))) (range (order + 1))).

(** polysets.py:478-497 *)
Definition prism_polynomial_set_vector (domain_dim range_dim order : nat) : res (list vpoly) :=
  rmap (vectorise range_dim) (prism_polynomial_set_1d domain_dim order).

(** polysets.py:500-519: x**i * y**j * z**k / (1 - z)**min(i, j), kept as the
    exponents together with the power of the denominator. *)
Definition ratmono := (mono * nat)%type.
Definition pyramid_polynomial_set_1d (dim order : nat) : res (list ratmono) :=
  if negb (dim =? 3) then Err AssertionError else
  Ok (flat_map (fun k => flat_map (fun i => map (fun j => ([i; j; k], Nat.min i j))
        (range (order + 1 - k))) (range (order + 1 - k))) (range (order + 1))).
Definition rmeval (m : ratmono) (v : point) : R :=
  (meval (fst m) v / (1 - v 2%nat) ^ snd m)%R.

(** polysets.py:522-541; a vector is (component, function) with zeros elsewhere. *)
Definition pyramid_polynomial_set_vector (domain_dim range_dim order : nat)
  : res (list (list (option ratmono))) :=
  rmap (flat_map (fun p => map (fun i =>
     map (fun j => if i =? j then Some p else None) (range range_dim)) (range range_dim)))
    (pyramid_polynomial_set_1d domain_dim order).

(** polysets.py:544-572.  Polynomials are embedded in the rational functions by
    a denominator of power zero. *)
Definition polynomial_set (cell : string) (order : nat) : res (list ratmono) :=
  let embed := rmap (map (fun m : mono => (m, 0))) in
  if String.eqb cell "interval" then embed (polynomial_set_1d 1 order)
  else if String.eqb cell "triangle" then embed (polynomial_set_1d 2 order)
  else if String.eqb cell "tetrahedron" then embed (polynomial_set_1d 3 order)
  else if String.eqb cell "quadrilateral" then embed (Ok (quolynomial_set_1d 2 order))
  else if String.eqb cell "hexahedron" then embed (Ok (quolynomial_set_1d 3 order))
  else if String.eqb cell "pyramid" then pyramid_polynomial_set_1d 3 order
  else if String.eqb cell "prism" then embed (prism_polynomial_set_1d 3 order)
  else Err ValueError.
