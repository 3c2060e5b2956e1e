(** Model of /repo/symfem/create.py: the element registry, create_reference and
    create_element. *)
From Coq Require Import String Ascii ZArith Bool List.
From Verif Require Import Base CacheModel.
Import ListNotations.
Open Scope string_scope.

(** min_order / max_order class attributes: absent, an int, or a dict from cell
    names to ints (create.py:209-222). *)
Inductive bound := NoBound | Const (z : Z) | Table (t : list (string * Z)).

(** An element class: only the attributes create.py looks at.  [c_id] is the
    identity of the class object (== on classes). *)
Record cls := { c_id : nat; c_names : list string; c_references : list string;
                c_min : bound; c_max : bound }.

(** Argument of add_element (create.py:28-33). *)
Inductive pyobj := NotAType | NotAnElement | TheBaseClass | ElementClass (c : cls).

(** _elementlist and _elementmap (create.py:14-15). *)
Definition emap := string -> option (string -> option cls).
Record registry := { r_list : list cls; r_map : emap }.
Definition empty_registry : registry := {| r_list := []; r_map := fun _ => None |}.

Definition upd_s {A} (m : string -> A) (k : string) (v : A) : string -> A :=
  fun k' => if String.eqb k' k then v else m k'.

(** The nested loop create.py:39-45 over the pairs (name, reference); the map
    modified so far is kept when the assertion fails. *)
Fixpoint register (m : emap) (c : cls) (pairs : list (string * string)) : emap * res unit :=
  match pairs with
  | [] => (m, Ok tt)
  | (n, r) :: rest =>
      let m1 := match m n with None => upd_s m n (Some (fun _ => None)) | Some _ => m end in
      let inner := match m1 n with Some i => i | None => fun _ => None end in
      match inner r with
      | Some c' =>
          if Nat.eqb (c_id c) (c_id c')
          then register (upd_s m1 n (Some (upd_s inner r (Some c)))) c rest
          else (m1, Err AssertionError)
      | None => register (upd_s m1 n (Some (upd_s inner r (Some c)))) c rest
      end
  end.

Definition pairs_of (c : cls) : list (string * string) :=
  flat_map (fun n => map (fun r => (n, r)) (c_references c)) (c_names c).

(** create.py:20-45 *)
Definition add_element (st : registry) (o : pyobj) : registry * res unit :=
  match o with
  | NotAType | NotAnElement | TheBaseClass => (st, Err TypeError)
  | ElementClass c =>
      match c_names c with
      | [] => (st, Err TypeError)
      | _ =>
          let l := if existsb (fun c' => Nat.eqb (c_id c') (c_id c)) (r_list st)
                   then r_list st else (r_list st ++ [c])%list in
          let '(m, out) := register (r_map st) c (pairs_of c) in
          ({| r_list := l; r_map := m |}, out)
      end
  end.

(** A history of calls; the outcome of every call is kept. *)
Fixpoint run_adds (st : registry) (os : list pyobj) : registry * list (res unit) :=
  match os with
  | [] => (st, [])
  | o :: rest =>
      let '(st1, out) := add_element st o in
      let '(st2, outs) := run_adds st1 rest in (st2, out :: outs)
  end.

(** Look-up of _elementmap[name][cell] as create_element does (create.py:190-193). *)
Definition lookup (st : registry) (name cell : string) : option cls :=
  match r_map st name with Some inner => inner cell | None => None end.

(** What create_element uses of a reference. *)
Record reference := { ref_name : string; ref_tdim : nat; ref_gdim : nat }.

(** Python's s.startswith(p). *)
Fixpoint starts_with (p s : string) : bool :=
  match p, s with
  | EmptyString, _ => true
  | String a p', String b s' => Ascii.eqb a b && starts_with p' s'
  | String _ _, EmptyString => false
  end.

(** create.py:64-99.  [gdim]: None when vertices is None, otherwise the length
    of the given points; the vertices themselves are not modelled (the Reference
    constructors do not validate them beyond their number).  int(...) is modelled on optional
    minus sign and digits only. *)
Definition create_reference (cell : string) (gdim : option nat) : res reference :=
  let mk name tdim := Ok {| ref_name := name; ref_tdim := tdim;
                            ref_gdim := match gdim with Some g => g | None => tdim end |} in
  if String.eqb cell "point" then mk "point" 0
  else if String.eqb cell "interval" then mk "interval" 1
  else if String.eqb cell "triangle" then mk "triangle" 2
  else if String.eqb cell "tetrahedron" then mk "tetrahedron" 3
  else if String.eqb cell "quadrilateral" then mk "quadrilateral" 2
  else if String.eqb cell "hexahedron" then mk "hexahedron" 3
  else if String.eqb cell "prism" then mk "prism" 3
  else if String.eqb cell "pyramid" then mk "pyramid" 3
  else if starts_with "dual polygon" cell then
    match nth_error (split "(" cell) 1 with
    | None => Err IndexError
    | Some t =>
        match parse_Z (hd "" (split ")" t)) with
        | Some _ => mk "dual polygon" 2
        | None => Err ValueError
        end
    end
  else Err ValueError.

Fixpoint assoc (k : string) (t : list (string * Z)) : option Z :=
  match t with [] => None | (k', v) :: t' => if String.eqb k k' then Some v else assoc k t' end.

(** create.py:201-223 *)
Definition order_is_allowed (c : cls) (ref : string) (order : Z) : bool :=
  let low_ok := match c_min c with
    | NoBound => true
    | Table t => match assoc ref t with Some b => negb (Z.ltb order b) | None => true end
    | Const b => negb (Z.ltb order b)
    end in
  let high_ok := match c_max c with
    | NoBound => true
    | Table t => match assoc ref t with Some b => negb (Z.ltb b order) | None => true end
    | Const b => negb (Z.ltb b order)
    end in
  low_ok && high_ok.

(** create.py:102-198; the result is the constructor call that is made. *)
Definition create_element (st : registry) (cell name : string) (order : Z) (gdim : option nat)
  : res (cls * reference * Z) :=
  match create_reference cell gdim with
  | Err e => Err e
  | Ok ref =>
      if negb (Nat.eqb (ref_tdim ref) (ref_gdim ref)) then Err ValueError
      else match r_map st name with
        | Some inner =>
            match inner (ref_name ref) with
            | None => Err ValueError
            | Some c =>
                if order_is_allowed c (ref_name ref) order then Ok (c, ref, order)
                else Err ValueError
            end
        | None => Err ValueError
        end
  end.
