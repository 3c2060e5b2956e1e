(** Model of /repo/symfem/quadrature.py. Exact sympy numbers are real numbers here. *)
From Coq Require Import String ZArith Reals List.
From Verif Require Import Base.
Import ListNotations.
Open Scope R_scope.

(** (points, weights) *)
Definition rule := (list R * list R)%type.

(** quadrature.py:12-27.  For n = 1 the code builds nan and zoo from Rational(0, 0) and
    Rational(1, 0); here division by zero is whatever it is in R, no theorem uses it. *)
Definition equispaced (n : nat) : rule :=
  (map (fun i => INR i / (INR n - 1)) (range n),
   map (fun i => if ((i =? 0) || (i =? n - 1))%nat%bool then 1 / (2 * (INR n - 1)) else 1 / (INR n - 1)) (range n)).

(** quadrature.py:30-113 *)
Definition lobatto (n : nat) : res rule :=
  match n with
  | 2%nat => Ok ([0; 1], [1/2; 1/2])
  | 3%nat => Ok ([0; 1/2; 1], [1/6; 2/3; 1/6])
  | 4%nat => Ok ([0; (1 - 1 / sqrt 5) / 2; (1 + 1 / sqrt 5) / 2; 1], [1/12; 5/12; 5/12; 1/12])
  | 5%nat => Ok ([0; (1 - sqrt 3 / sqrt 7) / 2; 1/2; (1 + sqrt 3 / sqrt 7) / 2; 1],
                 [1/20; 49/180; 16/45; 49/180; 1/20])
  | 6%nat => Ok ([0; (1 - sqrt (1/3 + 2 * sqrt 7 / 21)) / 2; (1 - sqrt (1/3 - 2 * sqrt 7 / 21)) / 2;
                  (1 + sqrt (1/3 - 2 * sqrt 7 / 21)) / 2; (1 + sqrt (1/3 + 2 * sqrt 7 / 21)) / 2; 1],
                 [1/30; (14 - sqrt 7) / 60; (14 + sqrt 7) / 60; (14 + sqrt 7) / 60; (14 - sqrt 7) / 60; 1/30])
  | 7%nat => Ok ([0; (1 - sqrt ((5 + 2 * sqrt 5 / sqrt 3) / 11)) / 2; (1 - sqrt ((5 - 2 * sqrt 5 / sqrt 3) / 11)) / 2;
                  1/2; (1 + sqrt ((5 - 2 * sqrt 5 / sqrt 3) / 11)) / 2; (1 + sqrt ((5 + 2 * sqrt 5 / sqrt 3) / 11)) / 2; 1],
                 [1/42; (124 - 7 * sqrt 15) / 700; (124 + 7 * sqrt 15) / 700; 128/525;
                  (124 + 7 * sqrt 15) / 700; (124 - 7 * sqrt 15) / 700; 1/42])
  | _ => Err NotImplementedError
  end.

(** quadrature.py:116-132 *)
Definition radau (n : nat) : res rule :=
  match n with
  | 2%nat => Ok ([0; 2/3], [1/4; 3/4])
  | 3%nat => Ok ([0; (6 - sqrt 6) / 10; (6 + sqrt 6) / 10], [1/9; (16 + sqrt 6) / 36; (16 - sqrt 6) / 36])
  | _ => Err NotImplementedError
  end.

(** quadrature.py:135-156 *)
Definition legendre (n : nat) : res rule :=
  match n with
  | 1%nat => Ok ([1/2], [1])
  | 2%nat => Ok ([(3 - sqrt 3) / 6; (3 + sqrt 3) / 6], [1/2; 1/2])
  | 3%nat => Ok ([(5 - sqrt 15) / 10; 1/2; (5 + sqrt 15) / 10], [5/18; 4/9; 5/18])
  | _ => Err NotImplementedError
  end.

(** quadrature.py:159-181 *)
Definition get_quadrature (r : string) (n : nat) : res rule :=
  if (r =? "equispaced")%string then Ok (equispaced n)
  else if (r =? "lobatto")%string then lobatto n
  else if (r =? "gll")%string then lobatto n
  else if (r =? "radau")%string then radau n
  else if (r =? "legendre")%string then legendre n
  else Err ValueError.
