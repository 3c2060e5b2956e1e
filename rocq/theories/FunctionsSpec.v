(** What the values of symfem functions are, stated independently of functions.py. *)
From Coquelicot Require Import Coquelicot.
From Coq Require Import String Reals ZArith Arith Bool Lia Lra List.
From Verif Require Import Base FunctionsModel.
Import ListNotations.
Local Open Scope R_scope.

(** Values of the symbols. *)
Definition env := sym -> R.

(** The value of an expression (meaningful where [defd] holds). *)
Fixpoint ev (p : env) (e : expr) : R :=
  match e with
  | ENum c => c
  | ESym s => p s
  | EAdd a b => ev p a + ev p b
  | EMul a b => ev p a * ev p b
  | EDiv a b => ev p a / ev p b
  | EPow a n => ev p a ^ n
  | ESqrt a => sqrt (ev p a)
  | EAbs a => Rabs (ev p a)
  end.

(** The expression has a real value: no division by zero, no root of a negative number. *)
Fixpoint defd (p : env) (e : expr) : Prop :=
  match e with
  | ENum _ | ESym _ => True
  | EAdd a b | EMul a b => defd p a /\ defd p b
  | EDiv a b => defd p a /\ defd p b /\ ev p b <> 0
  | EPow a _ | EAbs a => defd p a
  | ESqrt a => defd p a /\ 0 <= ev p a
  end.

(** The expression is moreover differentiable there. *)
Fixpoint smooth (p : env) (e : expr) : Prop :=
  match e with
  | ENum _ | ESym _ => True
  | EAdd a b | EMul a b => smooth p a /\ smooth p b
  | EDiv a b => smooth p a /\ smooth p b /\ ev p b <> 0
  | EPow a _ => smooth p a
  | EAbs a => smooth p a /\ ev p a <> 0
  | ESqrt a => smooth p a /\ 0 < ev p a
  end.

Definition upd (p : env) (s : sym) (v : R) : env := fun s' => if String.eqb s s' then v else p s'.

(** Numbers, vectors and matrices of numbers. *)
Inductive val := VS (c : R) | VV (l : list R) | VM (m : list (list R)).

(** A list item that is a number at p. *)
Definition item_value (p : env) (v : pyval) (c : R) : Prop :=
  match v with
  | PInt z => c = IZR z
  | PExpr e => c = ev p e
  | PFun (FS f) => c = ev p f
  | _ => False
  end.

Definition row_value (p : env) (v : pyval) (r : list R) : Prop :=
  match v with PSeq l => Forall2 (item_value p) l r | _ => False end.

(** [denotes p v u]: at the point p the python value v is the number / vector / matrix u. *)
Definition denotes (p : env) (v : pyval) (u : val) : Prop :=
  match v, u with
  | PInt z, VS c => c = IZR z
  | PExpr e, VS c => c = ev p e
  | PFun (FS f), VS c => c = ev p f
  | PFun (FV l), VV r => r = map (ev p) l
  | PFun (FM m), VM r => r = map (map (ev p)) m
  | PMat m, VM r => r = map (map (ev p)) m
  | PSeq l, VV r => Forall2 (item_value p) l r
  | PSeq l, VM r => Forall2 (row_value p) l r
  | _, _ => False
  end.

(** All entries have a value. *)
Definition item_defined (p : env) (v : pyval) : Prop :=
  match v with PExpr e => defd p e | PFun (FS f) => defd p f | _ => True end.
Definition row_defined (p : env) (v : pyval) : Prop :=
  match v with PSeq l => Forall (item_defined p) l | _ => item_defined p v end.
Definition defined (p : env) (v : pyval) : Prop :=
  match v with
  | PExpr e => defd p e
  | PFun (FS f) => defd p f
  | PFun (FV l) => Forall (defd p) l
  | PFun (FM m) | PMat m => Forall (Forall (defd p)) m
  | PSeq l => Forall (row_defined p) l
  | _ => True
  end.

(** Matrices are rectangular (what MatrixFunction.__init__ and sympy.Matrix guarantee). *)
Definition rectangular {A} (m : list (list A)) : Prop :=
  forall r r', In r m -> In r' m -> length r = length r'.
Definition wf (v : pyval) : Prop :=
  match v with PFun (FM m) | PMat m => rectangular m | _ => True end.

Definition is_function (v : pyval) : Prop := match v with PFun _ => True | _ => False end.
Definition not_sympy_matrix (v : pyval) : Prop := match v with PMat _ => False | _ => True end.

(** Componentwise operations, defined only for operands of the same size. *)
Fixpoint same_size {A B C} (op : A -> B -> option C) (u : list A) (v : list B) : option (list C) :=
  match u, v with
  | [], [] => Some []
  | a :: u', b :: v' =>
      match op a b, same_size op u' v' with Some c, Some w => Some (c :: w) | _, _ => None end
  | _, _ => None
  end.

Definition componentwise (op : R -> R -> R) (u v : val) : option val :=
  match u, v with
  | VS a, VS b => Some (VS (op a b))
  | VV a, VV b => option_map VV (same_size (fun x y => Some (op x y)) a b)
  | VM a, VM b => option_map VM (same_size (same_size (fun x y => Some (op x y))) a b)
  | _, _ => None
  end.

(** Apply a function of numbers to every entry. *)
Definition entrywise (f : R -> R) (u : val) : val :=
  match u with VS a => VS (f a) | VV a => VV (map f a) | VM a => VM (map (map f) a) end.

(** Multiplication with a number on either side; division by a number. *)
Definition scaled (u v : val) : option val :=
  match u, v with
  | _, VS c => Some (entrywise (fun a => a * c) u)
  | VS c, _ => Some (entrywise (fun a => c * a) v)
  | _, _ => None
  end.
Definition divided (u v : val) : option val :=
  match v with VS c => Some (entrywise (fun a => a / c) u) | _ => None end.

(** Inner products and matrix products. *)
Definition inner (u v : list R) : R := fold_right Rplus 0 (map (fun p => fst p * snd p) (combine u v)).
Definition ncols (m : list (list R)) : nat := match m with [] => 0%nat | r :: _ => length r end.
Definition column (m : list (list R)) (j : nat) : list R := map (fun r => nth j r 0) m.

Definition matrix_product (u v : val) : option val :=
  match u, v with
  | VM a, VM b =>
      if Nat.eqb (ncols a) (length b)
      then Some (VM (map (fun r => map (fun j => inner r (column b j)) (seq 0 (ncols b))) a)) else None
  | VM a, VV b => if Nat.eqb (ncols a) (length b) then Some (VV (map (fun r => inner r b) a)) else None
  | VV a, VM b =>
      if Nat.eqb (length a) (length b)
      then Some (VV (map (fun j => inner a (column b j)) (seq 0 (ncols b)))) else None
  | _, _ => None
  end.

Definition dot_product (u v : val) : option R :=
  match u, v with
  | VS a, VS b => Some (a * b)
  | VV a, VV b => if Nat.eqb (length a) (length b) then Some (inner a b) else None
  | VM a, VM b =>
      if Nat.eqb (length a) (length b) && Nat.eqb (ncols a) (ncols b)
      then Some (inner (concat a) (concat b)) else None
  | _, _ => None
  end.

Definition cross_product (u v : val) : option val :=
  match u, v with
  | VV [a0; a1], VV [b0; b1] => Some (VS (a0 * b1 - a1 * b0))
  | VV [a0; a1; a2], VV [b0; b1; b2] =>
      Some (VV [a1 * b2 - a2 * b1; a2 * b0 - a0 * b2; a0 * b1 - a1 * b0])
  | _, _ => None
  end.

(** Symbols of an expression. *)
Fixpoint occurs (s : sym) (e : expr) : Prop :=
  match e with
  | ENum _ => False
  | ESym s' => s = s'
  | EAdd a b | EMul a b | EDiv a b => occurs s a \/ occurs s b
  | EPow a _ | ESqrt a | EAbs a => occurs s a
  end.

(** The partial derivative of the value of e with respect to the symbol s is d. *)
Definition partial (p : env) (s : sym) (e : expr) (d : R) : Prop :=
  is_derive (fun h => ev (upd p s h) e) (p s) d.

(** The simultaneous assignment of values to variables: the first occurrence of a variable counts; variables
    without a value keep theirs. *)
Fixpoint assign (vs : list sym) (cs : list R) (p : env) : env :=
  match vs, cs with
  | v :: vs', c :: cs' => upd (assign vs' cs' p) v c
  | _, _ => p
  end.
