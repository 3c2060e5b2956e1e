(** Orthogonal (Legendre) polynomials: symfem/polynomials/legendre.py.
    A ScalarFunction is represented by its values ([sfun]); sympy simplifications are not modelled.
    The list of lists [poly] is mutated in place by the code: here a [table] with checked reads and
    writes (an index past the end is an IndexError), threaded through the loops. *)
From Coq Require Import String Arith ZArith Reals Bool List.
From Verif Require Import Base PolyLib.
Import ListNotations.
Open Scope R_scope.

Definition table := list (list sfun).
(** poly[d][i] as an expression *)
Definition tget (t : table) (d i : nat) : res sfun :=
  match nth_error t d with
  | None => Err IndexError
  | Some row => match nth_error row i with None => Err IndexError | Some f => Ok f end
  end.
(** l[i] = a *)
Fixpoint lset {A} (l : list A) (i : nat) (a : A) : res (list A) :=
  match l, i with
  | [], _ => Err IndexError
  | _ :: l', O => Ok (a :: l')
  | b :: l', S i' => rmap (cons b) (lset l' i' a)
  end.
(** poly[d][i] = f *)
Definition tset (t : table) (d i : nat) (f : sfun) : res table :=
  match nth_error t d with
  | None => Err IndexError
  | Some row => rbind (lset row i f) (fun row' => lset t d row')
  end.
(** for a in l: state = body(a, state) *)
Definition for_in {A T} (l : list A) (body : A -> T -> res T) (s : T) : res T :=
  fold_left (fun acc a => rbind acc (body a)) l (Ok s).

(** One summand of an assignment: if [guard]: ... += poly[d][i] * coefficient.  The code writes
    poly[..] = e0, then poly[..] += e1 under conditions; the assignments to one entry are merged into a
    single sum, and `-= e * c` is written with the coefficient -c. *)
Record term := T { guard : bool; t_d : nat; t_i : nat; t_c : sfun }.
Fixpoint total (t : table) (l : list term) : res sfun :=
  match l with
  | [] => Ok (fun _ => 0)
  | s :: l' =>
      if guard s then
        rbind (tget t (t_d s) (t_i s)) (fun f => rmap (fun g => fun v => f v * t_c s v + g v) (total t l'))
      else total t l'
  end.
Definition assign (d i : nat) (l : list term) (t : table) : res table :=
  rbind (total t l) (fun f => tset t d i f).

Definition is0 (n : nat) : bool := (n =? 0)%nat.
Definition const (c : R) : sfun := fun _ => c.

(** legendre.py:13-33.  Only used with a >= 1, where no denominator vanishes. *)
Definition jrc (a n : nat) : R * R * R :=
  (INR ((a + 2 * n + 1) * (a + 2 * n + 2)) / INR (2 * (n + 1) * (a + n + 1)),
   INR (a * a * (a + 2 * n + 1)) / INR (2 * (n + 1) * (a + n + 1) * (a + 2 * n)),
   INR (n * (a + n) * (a + 2 * n + 2)) / INR ((n + 1) * (a + n + 1) * (a + 2 * n))).

(** [[ScalarFunction(0) for i in range(n)] for d in range(m)] *)
Definition zeros (m n : nat) : table := repeat (repeat (const 0) n) m.

(** legendre.py:36-61.  [variables] lists the indices of the axis variables. *)
Definition orthogonal_basis_interval (order derivs : nat) (variables : list nat) : res table :=
  match variables with
  | [v0] =>
      for_in (range (derivs + 1)) (fun dx =>
      for_in (range2 1 (order + 1)) (fun i =>
        let r := INR (2 * i - 1) / INR i in
        assign dx i
          [T true dx (i - 1) (fun v => (2 * v v0 - 1) * r);
           T (0 <? dx)%nat (dx - 1) (i - 1) (fun v => 2 * INR dx * r);
           T (1 <? i)%nat dx (i - 2) (fun v => - (INR (i - 1) / INR i))]))
      (map (fun d => repeat (const (if is0 d then 1 else 0)) (order + 1)) (range (derivs + 1)))
  | _ => Err AssertionError
  end.

(** legendre.py:80-82 (also 165-167, 388-390): index and d_index on triangles *)
Definition index2 (p q : nat) : nat := (p + q + 1) * (p + q) / 2 + q.
(** legendre.py:196-198 (also 352-354, 392-394, 429-431) *)
Definition index3 (p q r : nat) : nat :=
  (p + q + r) * (p + q + r + 1) * (p + q + r + 2) / 6 + (q + r) * (q + r + 1) / 2 + r.

(** legendre.py:93-129: the entries [index(0, p)].  For p = 0 the constant 1, in the derivatives 0. *)
Definition triangle_p (v0 v1 dx dy p : nat) (t : table) : res table :=
  if is0 p then tset t (index2 dx dy) (index2 0 p) (const (if is0 dx && is0 dy then 1 else 0))
  else
    let pinv := 1 / INR p in
    assign (index2 dx dy) (index2 0 p)
      [T true (index2 dx dy) (index2 0 (p - 1)) (fun v => (2 * v v0 + v v1 - 1) * (2 - pinv));
       T (0 <? dy)%nat (index2 dx (dy - 1)) (index2 0 (p - 1)) (fun v => INR dy * (2 - pinv));
       T (0 <? dx)%nat (index2 (dx - 1) dy) (index2 0 (p - 1)) (fun v => 2 * INR dx * (2 - pinv));
       T (1 <? p)%nat (index2 dx dy) (index2 0 (p - 2)) (fun v => - ((1 - v v1) ^ 2 * (1 - pinv)));
       T ((1 <? p) && (0 <? dy))%nat (index2 dx (dy - 1)) (index2 0 (p - 2))
         (fun v => 2 * INR dy * (1 - v v1) * (1 - pinv));
       T ((1 <? p) && (1 <? dy))%nat (index2 dx (dy - 2)) (index2 0 (p - 2))
         (fun v => - (INR dy * INR (dy - 1) * (1 - pinv)))] t.
(** legendre.py:131-145: the entries [index(q, p)], q > 0 *)
Definition triangle_q (v1 dx dy p q : nat) (t : table) : res table :=
  let '(a, b, c) := jrc (2 * p + 1) (q - 1) in
  assign (index2 dx dy) (index2 q p)
    [T true (index2 dx dy) (index2 (q - 1) p) (fun v => (2 * v v1 - 1) * a + b);
     T (1 <? q)%nat (index2 dx dy) (index2 (q - 2) p) (fun v => - c);
     T (0 <? dy)%nat (index2 dx (dy - 1)) (index2 (q - 1) p) (fun v => 2 * INR dy * a)] t.
(** legendre.py:64-146 *)
Definition orthogonal_basis_triangle (order derivs : nat) (variables : list nat) : res table :=
  match variables with
  | [v0; v1] =>
      for_in (range (derivs + 1)) (fun dx =>
      for_in (range (derivs + 1 - dx)) (fun dy =>
      for_in (range (order + 1)) (fun p t =>
        rbind (triangle_p v0 v1 dx dy p t)
          (for_in (range2 1 (order - p + 1)) (triangle_q v1 dx dy p)))))
      (zeros ((derivs + 1) * (derivs + 2) / 2) ((order + 1) * (order + 2) / 2))
  | _ => Err AssertionError
  end.

(** products of rows: [a * b for a in r0 for b in r1] *)
Definition mul_rows (r0 r1 : list sfun) : list sfun :=
  flat_map (fun a => map (fun b => fun v : point => a v * b v) r1) r0.
(** poly[d], used as an expression *)
Definition trow (t : table) (d : nat) : res (list sfun) :=
  match nth_error t d with None => Err IndexError | Some r => Ok r end.

(** legendre.py:149-177 *)
Definition orthogonal_basis_quadrilateral (order derivs : nat) (variables : list nat) : res table :=
  match variables with
  | [v0; v1] =>
      rbind (orthogonal_basis_interval order derivs [v0]) (fun p0 =>
      rbind (orthogonal_basis_interval order derivs [v1]) (fun p1 =>
      for_in (range (derivs + 1)) (fun i =>
      for_in (range (derivs + 1 - i)) (fun j t =>
        rbind (trow p0 i) (fun a => rbind (trow p1 j) (fun b =>
        lset t (index2 i j) (mul_rows a b)))))
      (zeros ((derivs + 1) * (derivs + 2) / 2) ((order + 1) ^ 2))))
  | _ => Err AssertionError
  end.

(** legendre.py:209-283: the entries [index(0, 0, p)] *)
Definition tetrahedron_p (v0 v1 v2 dx dy dz p : nat) (t : table) : res table :=
  let d := index3 dx dy dz in
  if is0 p then tset t d (index3 0 0 p) (const (if is0 dx && is0 dy && is0 dz then 1 else 0))
  else
    let invp := 1 / INR p in
    let two := (1 <? p)%nat in
    let i1 := index3 0 0 (p - 1) in
    let i2 := index3 0 0 (p - 2) in
    assign d (index3 0 0 p)
      [T true d i1 (fun v => (2 * v v0 + v v1 + v v2 - 1) * (2 - invp));
       T (0 <? dx)%nat (index3 (dx - 1) dy dz) i1 (fun v => 2 * INR dx * (2 - invp));
       T (0 <? dy)%nat (index3 dx (dy - 1) dz) i1 (fun v => INR dy * (2 - invp));
       T (0 <? dz)%nat (index3 dx dy (dz - 1)) i1 (fun v => INR dz * (2 - invp));
       T two d i2 (fun v => - ((v v1 + v v2 - 1) ^ 2 * (1 - invp)));
       T (two && (0 <? dy)%nat) (index3 dx (dy - 1) dz) i2
         (fun v => - (2 * (v v1 + v v2 - 1) * INR dy * (1 - invp)));
       T (two && (1 <? dy)%nat) (index3 dx (dy - 2) dz) i2
         (fun v => - (INR dy * INR (dy - 1) * (1 - invp)));
       T (two && (0 <? dz)%nat) (index3 dx dy (dz - 1)) i2
         (fun v => - (2 * (v v1 + v v2 - 1) * INR dz * (1 - invp)));
       T (two && (1 <? dz)%nat) (index3 dx dy (dz - 2)) i2
         (fun v => - (INR dz * INR (dz - 1) * (1 - invp)));
       T (two && ((0 <? dz)%nat && (0 <? dy)%nat)) (index3 dx (dy - 1) (dz - 1)) i2
         (fun v => - (2 * INR dz * INR dy * (1 - invp)))] t.
(** legendre.py:286-316: the entries [index(0, q, p)], q > 0 *)
Definition tetrahedron_q (v1 v2 dx dy dz p q : nat) (t : table) : res table :=
  let '(a, b, c) := jrc (2 * p + 1) (q - 1) in
  let d := index3 dx dy dz in
  let two := (1 <? q)%nat in
  assign d (index3 0 q p)
    [T true d (index3 0 (q - 1) p) (fun v => (2 * v v1 + v v2 - 1) * a + (1 - v v2) * b);
     T (0 <? dy)%nat (index3 dx (dy - 1) dz) (index3 0 (q - 1) p) (fun v => 2 * a * INR dy);
     T (0 <? dz)%nat (index3 dx dy (dz - 1)) (index3 0 (q - 1) p) (fun v => (a - b) * INR dz);
     T two d (index3 0 (q - 2) p) (fun v => - ((1 - v v2) ^ 2 * c));
     T (two && (0 <? dz)%nat) (index3 dx dy (dz - 1)) (index3 0 (q - 2) p)
       (fun v => 2 * (1 - v v2) * INR dz * c);
     T (two && (1 <? dz)%nat) (index3 dx dy (dz - 2)) (index3 0 (q - 2) p)
       (fun v => - (INR dz * INR (dz - 1) * c))] t.
(** legendre.py:318-330: the entries [index(r, q, p)], r > 0 *)
Definition tetrahedron_r (v2 dx dy dz p q r : nat) (t : table) : res table :=
  let '(a, b, c) := jrc (2 * p + 2 * q + 2) (r - 1) in
  let d := index3 dx dy dz in
  assign d (index3 r q p)
    [T true d (index3 (r - 1) q p) (fun v => (v v2 * 2 - 1) * a + b);
     T (0 <? dz)%nat (index3 dx dy (dz - 1)) (index3 (r - 1) q p) (fun v => 2 * a * INR dz);
     T (1 <? r)%nat d (index3 (r - 2) q p) (fun v => - c)] t.
(** legendre.py:180-331 *)
Definition orthogonal_basis_tetrahedron (order derivs : nat) (variables : list nat) : res table :=
  match variables with
  | [v0; v1; v2] =>
      for_in (range (derivs + 1)) (fun dx =>
      for_in (range (derivs + 1 - dx)) (fun dy =>
      for_in (range (derivs + 1 - dx - dy)) (fun dz =>
      for_in (range (order + 1)) (fun p t =>
        rbind (tetrahedron_p v0 v1 v2 dx dy dz p t)
          (for_in (range (order - p + 1)) (fun q t =>
             rbind (if (0 <? q)%nat then tetrahedron_q v1 v2 dx dy dz p q t else Ok t)
               (for_in (range2 1 (order - p - q + 1)) (tetrahedron_r v2 dx dy dz p q))))))))
      (zeros ((derivs + 1) * (derivs + 2) * (derivs + 3) / 6)
             ((order + 1) * (order + 2) * (order + 3) / 6))
  | _ => Err AssertionError
  end.

(** legendre.py:334-366 *)
Definition orthogonal_basis_hexahedron (order derivs : nat) (variables : list nat) : res table :=
  match variables with
  | [v0; v1; v2] =>
      rbind (orthogonal_basis_interval order derivs [v0]) (fun p0 =>
      rbind (orthogonal_basis_interval order derivs [v1]) (fun p1 =>
      rbind (orthogonal_basis_interval order derivs [v2]) (fun p2 =>
      for_in (range (derivs + 1)) (fun i =>
      for_in (range (derivs + 1 - i)) (fun j =>
      for_in (range (derivs + 1 - i - j)) (fun k t =>
        rbind (trow p0 i) (fun a => rbind (trow p1 j) (fun b => rbind (trow p2 k) (fun c =>
        lset t (index3 i j k) (mul_rows (mul_rows a b) c)))))))
      (zeros ((derivs + 1) * (derivs + 2) * (derivs + 3) / 6) ((order + 1) ^ 3)))))
  | _ => Err AssertionError
  end.

(** legendre.py:369-404 *)
Definition orthogonal_basis_prism (order derivs : nat) (variables : list nat) : res table :=
  match variables with
  | [v0; v1; v2] =>
      rbind (orthogonal_basis_triangle order derivs [v0; v1]) (fun p01 =>
      rbind (orthogonal_basis_interval order derivs [v2]) (fun p2 =>
      for_in (range (derivs + 1)) (fun i =>
      for_in (range (derivs + 1 - i)) (fun j =>
      for_in (range (derivs + 1 - i - j)) (fun k t =>
        rbind (trow p01 (index2 i j)) (fun a => rbind (trow p2 k) (fun b =>
        lset t (index3 i j k) (mul_rows a b))))))
      (zeros ((derivs + 1) * (derivs + 2) * (derivs + 3) / 6) ((order + 1) * (order + 1) * (order + 2) / 2))))
  | _ => Err AssertionError
  end.

(** legendre.py:422-430.  Python integers ([Z]); the value is never negative for the indices used, so that
    no list is indexed from its end. *)
Definition pyramid_index (order i j k : nat) : nat :=
  let o := Z.of_nat order in let i' := Z.of_nat i in let j' := Z.of_nat j in
  Z.to_nat
   (let out := (Z.of_nat k + j' * (o + 1) + i' * (o + 1) * (o + 2) / 2 - i' * (i' ^ 2 + 5) / 6)%Z in
    if (j' <? i')%Z then (out - i' * (j' - 1))%Z
    else (out - (j' * (j' - 1) / 2 + i' * (i' - 1) / 2))%Z).
(** legendre.py:436-441 *)
Definition combinations (n k : nat) : nat := fold_left (fun out i => out * (n - i))%nat (range k) 1%nat.
(** legendre.py:452-496: the entries index(i, 0, 0), i > 0 *)
Definition pyramid_i (order v0 v2 dx dy dz i : nat) (t : table) : res table :=
  let d := index3 dx dy dz in
  let r := INR (2 * i - 1) / INR i in
  let s := INR (i - 1) / INR i in
  let two := (1 <? i)%nat in
  let i1 := pyramid_index order (i - 1) 0 0 in
  let i2 := pyramid_index order (i - 2) 0 0 in
  assign d (pyramid_index order i 0 0)
    [T true d i1 (fun v => (2 * v v0 + v v2 - 1) * r);
     T (0 <? dx)%nat (index3 (dx - 1) dy dz) i1 (fun v => 2 * INR dx * r);
     T (0 <? dz)%nat (index3 dx dy (dz - 1)) i1 (fun v => INR dz * r);
     T two d i2 (fun v => - ((1 - v v2) ^ 2 * s));
     T (two && (0 <? dz)%nat) (index3 dx dy (dz - 1)) i2 (fun v => 2 * (1 - v v2) * INR dz * s);
     T (two && (1 <? dz)%nat) (index3 dx dy (dz - 2)) i2 (fun v => - (INR dz * INR (dz - 1) * s))] t.
(** legendre.py:499-596: the entries index(i, j, 0), j > 0.  At points with variables[2] = 1 the code has
    a pole; division by 0 is 0 here. *)
Definition pyramid_j (order v1 v2 dx dy dz i j : nat) (t : table) : res table :=
  let d := index3 dx dy dz in
  let r := INR (2 * j - 1) / INR j in
  let s := INR (j - 1) / INR j in
  let two := (1 <? j)%nat in
  let i1 := pyramid_index order i (j - 1) 0 in
  let i2 := pyramid_index order i (j - 2) 0 in
  assign d (pyramid_index order i j 0)
    (if (j <=? i)%nat then
       [T true d i1 (fun v => (2 * v v1 / (1 - v v2) - 1) * r);
        T (0 <? dy)%nat (index3 dx (dy - 1) dz) i1 (fun v => 2 * INR dy / (1 - v v2) * r)] ++
       flat_map (fun di =>
         [T true (index3 dx dy (dz - di)) i1
            (fun v => INR (combinations dz di) * v v1 / (1 - v v2) ^ (di + 1) * 2 * r);
          T (0 <? dy)%nat (index3 dx (dy - 1) (dz - di)) i1
            (fun v => INR (combinations dz di) * INR dy / (1 - v v2) ^ (di + 1) * 2 * r)])
         (range2 1 (dz + 1)) ++
       [T two d i2 (fun v => - s)]
     else
       [T true d i1 (fun v => (2 * v v1 + v v2 - 1) * r);
        T (0 <? dy)%nat (index3 dx (dy - 1) dz) i1 (fun v => 2 * INR dy * r);
        T (0 <? dz)%nat (index3 dx dy (dz - 1)) i1 (fun v => INR dz * r)] ++
       (if (i + 1 =? j)%nat then
          [T two d i2 (fun v => - ((1 - v v2) * s));
           T (two && (0 <? dz)%nat) (index3 dx dy (dz - 1)) i2 (fun v => INR dz * s)]
        else
          [T two d i2 (fun v => - ((1 - v v2) ^ 2 * s));
           T (two && (0 <? dz)%nat) (index3 dx dy (dz - 1)) i2 (fun v => 2 * INR dz * (1 - v v2) * s);
           T (two && (1 <? dz)%nat) (index3 dx dy (dz - 2)) i2 (fun v => - (INR dz * INR (dz - 1) * s))])) t.
(** legendre.py:598-620: the entries index(i, j, k), k > 0 *)
Definition pyramid_k (order v2 dx dy dz i j k : nat) (t : table) : res table :=
  let '(a, b, c) := jrc (2 * Nat.max i j + 2) (k - 1) in
  let d := index3 dx dy dz in
  assign d (pyramid_index order i j k)
    [T true d (pyramid_index order i j (k - 1)) (fun v => a * (2 * v v2 - 1));
     T (0 <? dz)%nat (index3 dx dy (dz - 1)) (pyramid_index order i j (k - 1)) (fun v => a * 2 * INR dz);
     T true d (pyramid_index order i j (k - 1)) (fun v => b);
     T (1 <? k)%nat d (pyramid_index order i j (k - 2)) (fun v => - c)] t.
(** legendre.py:407-622 *)
Definition orthogonal_basis_pyramid (order derivs : nat) (variables : list nat) : res table :=
  match variables with
  | [v0; v1; v2] =>
      for_in (range (derivs + 1)) (fun dx =>
      for_in (range (derivs + 1 - dx)) (fun dy =>
      for_in (range (derivs + 1 - dx - dy)) (fun dz t =>
        rbind (tset t (index3 dx dy dz) 0 (const (if is0 dx && is0 dy && is0 dz then 1 else 0)))
          (for_in (range (order + 1)) (fun i t =>
             rbind (if (0 <? i)%nat then pyramid_i order v0 v2 dx dy dz i t else Ok t)
               (for_in (range (order + 1)) (fun j t =>
                  rbind (if (0 <? j)%nat then pyramid_j order v1 v2 dx dy dz i j t else Ok t)
                    (for_in (range2 1 (order + 1 - Nat.max i j)) (pyramid_k order v2 dx dy dz i j)))))))))
      (zeros ((derivs + 1) * (derivs + 2) * (derivs + 3) / 6)
             ((2 * order + 3) * (order + 2) * (order + 1) / 6))
  | _ => Err AssertionError
  end.

(** legendre.py:625-658 and the default arguments of the functions above; [variables = None] is the default. *)
Definition orthogonal_basis (cell : string) (order derivs : nat) (variables : option (list nat)) : res table :=
  let args d := match variables with Some vs => vs | None => range d end in
  if String.eqb cell "interval" then orthogonal_basis_interval order derivs (args 1%nat)
  else if String.eqb cell "triangle" then orthogonal_basis_triangle order derivs (args 2%nat)
  else if String.eqb cell "quadrilateral" then orthogonal_basis_quadrilateral order derivs (args 2%nat)
  else if String.eqb cell "hexahedron" then orthogonal_basis_hexahedron order derivs (args 3%nat)
  else if String.eqb cell "tetrahedron" then orthogonal_basis_tetrahedron order derivs (args 3%nat)
  else if String.eqb cell "prism" then orthogonal_basis_prism order derivs (args 3%nat)
  else if String.eqb cell "pyramid" then orthogonal_basis_pyramid order derivs (args 3%nat)
  else Err ValueError.

(** functions.py:801-806 for f.integral(ref, dummy_vars=variables): on a reference cell (origin 0, unit
    axes) the point is [variables]; x_0, x_1, ... (vars=x) are replaced by its entries one after the other. *)
Definition substituted (variables : list nat) (f : sfun) : sfun :=
  fold_left (fun (g : sfun) (kp : nat * nat) => fun v => g (fun i => if Nat.eq_dec i (fst kp) then v (snd kp) else v i))
    (combine (range 3) variables) f.

(** legendre.py:661-685.  [integrate g] is the value of g.integrate( *limits) (functions.py:815), computed by
    sympy, for the limits of the reference cell in the variables; the jacobian of a reference cell is 1. *)
Definition orthonormal_basis (integrate : sfun -> R) (cell : string) (order derivs : nat)
    (variables : option (list nat)) : res table :=
  rbind (orthogonal_basis cell order derivs variables) (fun poly =>
  rbind (trow poly 0) (fun row =>
  let vars := match variables with Some l => l | None => range 3 end in
  let norms := map (fun f : sfun => sqrt (integrate (substituted vars (fun v => f v ^ 2)))) row in
  for_in (combine (range (length norms)) norms) (fun '(i, n) =>
  for_in (range (length poly)) (fun j t =>
    rbind (tget t j i) (fun f => tset t j i (fun v => f v / n)))) poly)).
