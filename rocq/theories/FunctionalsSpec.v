(** What the value of a degree of freedom is. *)
From Coquelicot Require Import Coquelicot.
From Coq Require Import String Reals List.
From Verif Require Import Base FunctionsModel FunctionsSpec FunctionalsModel.
Import ListNotations.

(** The degree of freedom [d] applied to [function] is the number [value]: the same number for all values of
    the symbols. *)
Definition evaluates (d : functional) (function : func) (value : R) : Prop :=
  match eval_symbolic d function with
  | Ok (Value (FS e)) => forall p, ev p e = value
  | Ok (Integral e limits) => forall p, integrates limits (fun tv => ev (with_t p tv) e) value
  | _ => False
  end.

(** The python expression f*a + g*b. *)
Definition linear_combination (f : func) (a : R) (g : func) (b : R) : res pyval :=
  rbind (py_mul (PFun f) (PExpr (ENum a))) (fun fa =>
  rbind (py_mul (PFun g) (PExpr (ENum b))) (fun gb => py_add fa gb)).

(** All symbols of e are among these. *)
Definition symbols_in (allowed : list sym) (e : expr) : Prop := forall s, occurs s e -> In s allowed.

(** No division, root or absolute value. *)
Fixpoint polynomial (e : expr) : Prop :=
  match e with
  | ENum _ | ESym _ => True
  | EAdd a b | EMul a b => polynomial a /\ polynomial b
  | EPow a _ => polynomial a
  | EDiv _ _ | ESqrt _ | EAbs _ => False
  end.

(** x, y, z have these values. *)
Definition x_point (cs : list R) : env := assign x_symbols cs (fun _ => 0%R).

(** t0, t1, t2 have these values. *)
Definition t_point (tv : nat -> R) : env := assign t_symbols [tv 0%nat; tv 1%nat; tv 2%nat] (fun _ => 0%R).

(** A variable set to v. *)
Definition set_var (p : env) (s : sym) (v : R) : env := fun s' => if String.eqb s s' then v else p s'.

(** [G] is the function [F] differentiated with respect to the symbols [ds], one after the other, at every
    point. *)
Fixpoint derivatives (ds : list sym) (F G : env -> R) : Prop :=
  match ds with
  | [] => forall p, F p = G p
  | s :: ds' => exists F', (forall p, is_derive (fun h => F (set_var p s h)) (p s) (F' p)) /\ derivatives ds' F' G
  end.

(** The symbols of a multi-index: x repeated derivative[0] times, then y, z. *)
Definition multi_index (derivative : list nat) : list sym :=
  flat_map (fun sn => repeat (fst sn) (snd sn)) (combine x_symbols derivative).

(** origin + sum of t_j * axes[j]. *)
Definition placed (origin : list R) (axes : list (list R)) (tv : nat -> R) : list R :=
  map (fun i => nth i origin 0%R +
                fold_right Rplus 0%R (map (fun j => tv j * nth i (nth j axes []) 0)%R (seq 0 (length axes))))%R
      (seq 0 (length origin)).

(** The point cs + h ds. *)
Definition along (cs ds : list R) (h : R) : list R := map (fun cd => fst cd + h * snd cd)%R (combine cs ds).

(** The divergence of a vector of functions of x, y, z: the sum of the derivatives of the i-th component with
    respect to the i-th variable. *)
Definition divergence (v : list expr) (p : env) (value : R) : Prop :=
  exists ds, Forall2 (fun se d => is_derive (fun h => ev (set_var p (fst se) h) (snd se)) (p (fst se)) d) (combine x_symbols v) ds /\
    value = fold_right Rplus 0%R ds.
