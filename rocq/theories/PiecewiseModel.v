(** Model of symfem/piecewise_functions.py.

    The corners of the sub-cells are points with real coordinates; python compares tuples of sympy numbers where
    the model compares the numbers.  Pieces are scalar, vector or matrix functions: piecewise functions whose
    pieces are piecewise again (which .dot and .cross with a second piecewise function would build) are not
    modelled, nor are as_sympy, as_tex, plot_values, with_floats, __getitem__, det and the exponent of ** being
    a function. *)
From Coq Require Import String Reals ZArith Arith Bool List.
From Verif Require Import Base.
From Verif Require ReferencesModel.
From Verif Require Import GeometryModel FunctionsModel FunctionalsModel.
Import ListNotations.
Local Open Scope R_scope.

Notation pt := ReferencesModel.pt.
Notation pts_eq_dec := ReferencesModel.pts_eq_dec.

Record piecewise := { pw_pieces : list (list pt * func); pw_tdim : nat }.

(** Writing dict[key] = value: the place of an existing key is kept. *)
Fixpoint dict_set {V} (d : list (list pt * V)) (k : list pt) (v : V) : list (list pt * V) :=
  match d with
  | [] => [(k, v)]
  | (k', v') :: d' => if pts_eq_dec k' k then (k', v) :: d' else (k', v') :: dict_set d' k v
  end.

Definition dict_of {V} (items : list (list pt * V)) : list (list pt * V) :=
  fold_left (fun d kv => dict_set d (fst kv) (snd kv)) items [].

(** is_scalar, is_vector, is_matrix agree (functions.py:453-482). *)
Definition same_kind (f g : func) : bool :=
  match f, g with FS _, FS _ | FV _, FV _ | FM _, FM _ => true | _, _ => false end.

(** __init__: piecewise_functions.py:40-67 *)
Definition make_pw (pieces : list (list pt * pyval)) (tdim : nat) : res piecewise :=
  rbind (map_res (fun sf => rmap (pair (fst sf)) (parse_function_input (snd sf))) pieces) (fun items =>
  match dict_of items with
  | [] => Err AssertionError
  | ((_, first) :: _) as d =>
      if forallb (fun sf => same_kind first (snd sf)) d then Ok {| pw_pieces := d; pw_tdim := tdim |}
      else Err AssertionError
  end).

(** get_piece: piecewise_functions.py:129-160.  [fl]: see GeometryModel.v. *)
Definition in_cell (fl : bool) (tdim : nat) (point : pt) (cell : list pt) : res bool :=
  match tdim with
  | 1%nat => point_in_interval fl (firstn 1 point) cell
  | 2%nat =>
      match length cell with
      | 3%nat => point_in_triangle fl (firstn 2 point) cell
      | 4%nat => point_in_quadrilateral fl (firstn 2 point) cell
      | _ => Err ValueError
      end
  | _ => match length cell with 4%nat => point_in_tetrahedron fl point cell | _ => Err ValueError end
  end.

Fixpoint first_piece (fl : bool) (tdim : nat) (point : pt) (pieces : list (list pt * func)) : res func :=
  match pieces with
  | [] => Err NotImplementedError
  | (cell, value) :: rest =>
      rbind (in_cell fl tdim point cell) (fun b => if b then Ok value else first_piece fl tdim point rest)
  end.

Definition get_piece (fl : bool) (self : piecewise) (point : pt) : res func :=
  match pw_tdim self with
  | 1%nat | 2%nat | 3%nat => first_piece fl (pw_tdim self) point (pw_pieces self)
  | _ => Err NotImplementedError
  end.

(** The loops over two functions, for example 193-197: zip stops at the shorter one. *)
Definition pw_zip (op : pyval -> pyval -> res pyval) (self other : piecewise) : res piecewise :=
  rbind (map_res (fun ab =>
           if pts_eq_dec (fst (fst ab)) (fst (snd ab))
           then rmap (pair (fst (fst ab))) (op (PFun (snd (fst ab))) (PFun (snd (snd ab))))
           else Err AssertionError) (zip (pw_pieces self) (pw_pieces other)))
    (fun new_pieces => make_pw new_pieces (pw_tdim self)).

(** {shape: g(f) for shape, f in self._pieces.items()} *)
Definition pw_map (g : func -> res pyval) (self : piecewise) : res piecewise :=
  rbind (map_res (fun sf => rmap (pair (fst sf)) (g (snd sf))) (pw_pieces self))
    (fun new_pieces => make_pw new_pieces (pw_tdim self)).

(** An operand of a binary operator. *)
Inductive operand := OPw (f : piecewise) | OVal (v : pyval).

(** a op b where at least one is a piecewise function: 190-288 with the reflected methods.  A function of the
    other classes on the left returns NotImplemented for a piecewise function, so that the reflected method runs;
    a sympy Expr on the left is not modelled. *)
Definition pw_binop (op : pyval -> pyval -> res pyval) (a b : operand) : res piecewise :=
  match a, b with
  | OPw p, OPw q => pw_zip op p q
  | OPw p, OVal v => pw_map (fun f => op (PFun f) v) p
  | OVal v, OPw p => pw_map (fun f => op v (PFun f)) p
  | OVal _, OVal _ => Err TypeError
  end.
(** 190-228 *)
Definition pw_add := pw_binop py_add.
Definition pw_sub := pw_binop py_sub.
(** 230-268 *)
Definition pw_truediv := pw_binop py_truediv.
Definition pw_mul := pw_binop py_mul.
(** 270-288 *)
Definition pw_matmul := pw_binop py_matmul.

(** 290-302, 330-441: every piece on its own. *)
Definition on_pieces (g : func -> res func) : piecewise -> res piecewise := pw_map (fun f => rmap PFun (g f)).
Definition pw_pow (self : piecewise) (n : Z) := on_pieces (fun f => f_pow f n) self.
Definition pw_neg := on_pieces f_neg.
Definition pw_diff (self : piecewise) (s : sym) := on_pieces (fun f => f_diff f s) self.
Definition pw_directional_derivative (self : piecewise) (direction : list expr) :=
  on_pieces (fun f => f_directional_derivative f direction) self.
Definition pw_jacobian (self : piecewise) (dim : nat) := on_pieces (fun f => f_jacobian f dim) self.
Definition pw_dot (self : piecewise) (other : pyval) := on_pieces (fun f => f_dot f other) self.
Definition pw_cross (self : piecewise) (other : pyval) := on_pieces (fun f => f_cross f other) self.
Definition pw_div := on_pieces f_div.
Definition pw_grad (self : piecewise) (dim : nat) := on_pieces (fun f => f_grad f dim) self.
Definition pw_curl := on_pieces f_curl.
Definition pw_norm := on_pieces f_norm.

(** Expr.is_constant(), simplified: no symbol occurs (sympy also recognises some constant expressions with
    symbols). *)
Fixpoint symbol_free (e : expr) : bool :=
  match e with
  | ENum _ => true
  | ESym _ => false
  | EAdd a b | EMul a b | EDiv a b => symbol_free a && symbol_free b
  | EPow a _ | ESqrt a | EAbs a => symbol_free a
  end.

(** 318-324: the loop over the values; None where it is left by break.  The items are converted by
    _to_sympy_format (functions.py:42-72). *)
Fixpoint constants (values : list pyval) : res (option (list expr)) :=
  match values with
  | [] => Ok (Some [])
  | v :: values' =>
      rbind (match v with
             | PInt z => Ok (ENum (IZR z))
             | PExpr e => Ok e
             | PFun (FS f) => Ok f
             | POther => Err NotImplementedError
             | PSeq [] => Err IndexError
             | _ => Err AssertionError
             end) (fun e =>
      if symbol_free e then rmap (option_map (cons e)) (constants values') else Ok None)
  end.

(** The value of an expression without symbols. *)
Fixpoint number (e : expr) : R :=
  match e with
  | ENum c => c
  | ESym _ => 0
  | EAdd a b => number a + number b
  | EMul a b => number a * number b
  | EDiv a b => number a / number b
  | EPow a n => number a ^ n
  | ESqrt a => sqrt (number a)
  | EAbs a => Rabs (number a)
  end.

(** What subs returns: a piece with the values substituted, or a piecewise function. *)
Inductive substituted := SFun (f : func) | SPw (f : piecewise).

(** subs: 304-328 *)
Definition pw_subs (fl : bool) (self : piecewise) (vars : axis_vars) (values : pyval) : res substituted :=
  let everywhere := rmap SPw (on_pieces (fun f => f_subs f vars (as_sympy values)) self) in
  match as_sympy values with
  | PSeq l =>
      if Nat.eqb (length l) (pw_tdim self) then
        rbind (constants l) (fun cs =>
        match cs with
        | Some es => rbind (get_piece fl self (map number es)) (fun f => rmap SFun (f_subs f vars (as_sympy values)))
        | None => everywhere
        end)
      else everywhere
  | _ => everywhere
  end.

(** _piece_reference: 568-587; create_reference (create.py:63-103) hands the vertices to the constructor. *)
Definition piece_reference (tdim : nat) (shape : list pt) : res reference :=
  match tdim with
  | 1%nat => ReferencesModel.make_reference ReferencesModel.CInterval shape
  | 2%nat =>
      match length shape with
      | 3%nat => ReferencesModel.make_reference ReferencesModel.CTriangle shape
      | 4%nat => ReferencesModel.make_reference ReferencesModel.CQuadrilateral shape
      | _ => Err ValueError
      end
  | 3%nat =>
      match length shape with
      | 4%nat => ReferencesModel.make_reference ReferencesModel.CTetrahedron shape
      | _ => Err ValueError
      end
  | _ => Err ValueError
  end.

(** integral: 443-465, the terms that are added to 0. *)
Definition piece_integral (tdim : nat) (domain : reference) (sf : list pt * func) : res (list outcome) :=
  rbind (piece_reference tdim (fst sf)) (fun ref =>
  rbind (intersection ref domain) (fun sub_domain =>
  match sub_domain with
  | Some d => rmap (fun o => [o]) (f_integral (snd sf) d)
  | None => Ok []
  end)).
Definition pw_integral (self : piecewise) (domain : reference) : res (list outcome) :=
  rmap (@concat outcome) (map_res (piece_integral (pw_tdim self) domain) (pw_pieces self)).

(** map_pieces: 489-509; the method changes self, here the new state is returned.  Simplified: the images of the corners are given as numbers, by [fwd_map]; a map with
    other symbols than x would give corners that are no numbers. *)
Definition map_pieces (self : piecewise) (fwd_map : pt -> pt) : piecewise :=
  {| pw_pieces := dict_of (map (fun sf => (map fwd_map (fst sf), snd sf)) (pw_pieces self)); pw_tdim := pw_tdim self |}.

(** __eq__: 168-179 for two piecewise functions, [f_eq] being the comparison of two pieces. *)
Fixpoint zip_eq (f_eq : func -> func -> bool) (l : list ((list pt * func) * (list pt * func))) : res bool :=
  match l with
  | [] => Ok true
  | (a, b) :: l' =>
      if pts_eq_dec (fst a) (fst b) then if f_eq (snd a) (snd b) then zip_eq f_eq l' else Ok false
      else Err AssertionError
  end.
Definition pw_eq (f_eq : func -> func -> bool) (self other : piecewise) : res bool :=
  if Nat.eqb (pw_tdim self) (pw_tdim other) then zip_eq f_eq (zip (pw_pieces self) (pw_pieces other)) else Ok false.
