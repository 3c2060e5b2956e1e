(** Model of the bookkeeping in /repo/symfem/finite_element.py: entity dofs, enriched
    elements, tabulation orders, mapping to a cell, memoisation of basis functions. *)
From Coq Require Import String Arith Bool Lia List.
From Verif Require Import Base.
Import ListNotations.

(** (entity dimension, entity number) *)
Definition entity := (nat * nat)%type.
Definition entity_eqb (a b : entity) : bool := (fst a =? fst b) && (snd a =? snd b).

(** The list of all sub-entities in the order of the loops finite_element.py:811-812, from the
    numbers sub_entity_count(0), sub_entity_count(1), ... (references.py:555-567). *)
Definition cell_entities (counts : list nat) : list entity :=
  flat_map (fun dk => map (fun e => (fst dk, e)) (range (snd dk))) (combine (range (length counts)) counts).

(** finite_element.py:635 and :920 (Ciarlet and direct elements):
    [i for i, j in enumerate(entities) if j == (dim, number)] *)
Definition enumerate {A} (l : list A) : list (nat * A) := combine (range (length l)) l.
Definition entity_dofs_of (ents : list entity) (dim number : nat) : list nat :=
  map fst (filter (fun ij => entity_eqb (snd ij) (dim, number)) (enumerate ents)).

(** An element as seen through its public methods.  [el_basis] is the outcome of
    get_basis_functions(), which may raise. *)
Record element (Fn : Type) := {
  el_reference : nat;              (* reference cell, compared with == *)
  el_domain_dim : nat;
  el_range_dim : nat;
  el_range_shape : option (list nat);
  el_space_dim : nat;
  el_entity_dofs : nat -> nat -> list nat;
  el_dof_entities : list entity;
  el_basis : res (list Fn)
}.
Arguments el_reference {Fn}. Arguments el_domain_dim {Fn}. Arguments el_range_dim {Fn}.
Arguments el_range_shape {Fn}. Arguments el_space_dim {Fn}. Arguments el_entity_dofs {Fn}.
Arguments el_dof_entities {Fn}. Arguments el_basis {Fn}.

(** finite_element.py:592-635, 653-659 (CiarletElement): space_dim is len(dofs). The basis
    computation is a parameter here (see CiarletModel.v). *)
Definition ciarlet_element {Fn} (ref dom rd : nat) (shape : option (list nat))
    (dof_ents : list entity) (basis : res (list Fn)) : element Fn :=
  {| el_reference := ref; el_domain_dim := dom; el_range_dim := rd; el_range_shape := shape;
     el_space_dim := length dof_ents; el_entity_dofs := entity_dofs_of dof_ents;
     el_dof_entities := dof_ents; el_basis := basis |}.

(** finite_element.py:885-920, 987-1001 (DirectElement): space_dim is len(basis_functions). *)
Definition direct_element {Fn} (ref dom rd : nat) (shape : option (list nat))
    (fns : list Fn) (basis_ents : list entity) : element Fn :=
  {| el_reference := ref; el_domain_dim := dom; el_range_dim := rd; el_range_shape := shape;
     el_space_dim := length fns; el_entity_dofs := entity_dofs_of basis_ents;
     el_dof_entities := basis_ents; el_basis := Ok fns |}.

Fixpoint nats_eqb (a b : list nat) : bool :=
  match a, b with
  | [], [] => true
  | x :: a', y :: b' => (x =? y) && nats_eqb a' b'
  | _, _ => false
  end.
Definition shape_eqb (a b : option (list nat)) : bool :=
  match a, b with None, None => true | Some x, Some y => nats_eqb x y | _, _ => false end.

(** finite_element.py:1114-1118 *)
Definition compatible {Fn} (e0 e : element Fn) : bool :=
  (el_reference e =? el_reference e0) && (el_domain_dim e =? el_domain_dim e0)
  && (el_range_dim e =? el_range_dim e0) && shape_eqb (el_range_shape e) (el_range_shape e0).

(** finite_element.py:1141-1146 *)
Fixpoint enriched_entity_dofs {Fn} (start : nat) (subs : list (element Fn)) (dim number : nat) : list nat :=
  match subs with
  | [] => []
  | e :: subs' => map (fun i => start + i) (el_entity_dofs e dim number)
                  ++ enriched_entity_dofs (start + el_space_dim e) subs' dim number
  end.

(** finite_element.py:1195-1200, first call: the sub-elements' lists one after the other *)
Fixpoint concat_res {A} (l : list (res (list A))) : res (list A) :=
  match l with
  | [] => Ok []
  | r :: l' => rbind r (fun a => rmap (app a) (concat_res l'))
  end.

(** finite_element.py:1100-1129 with the methods 1131-1200; subelements[0] of an empty list
    raises IndexError. *)
Definition enriched_element {Fn} (subs : list (element Fn)) : res (element Fn) :=
  match subs with
  | [] => Err IndexError
  | e0 :: _ =>
    if forallb (compatible e0) subs then
      Ok {| el_reference := el_reference e0; el_domain_dim := el_domain_dim e0;
            el_range_dim := el_range_dim e0; el_range_shape := el_range_shape e0;
            el_space_dim := list_sum (map el_space_dim subs);
            el_entity_dofs := enriched_entity_dofs 0 subs;
            el_dof_entities := flat_map el_dof_entities subs;
            el_basis := concat_res (map el_basis subs) |}
    else Err AssertionError
  end.

(** * Repeated calls of EnrichedElement.get_basis_functions() (finite_element.py:1192-1200).
    The memo starts as None; on the first call it is set to [] and extended in place, so an
    exception raised by a sub-element leaves the functions collected so far in the memo. *)
Fixpoint collect {A} (acc : list A) (l : list (res (list A))) : list A * res (list A) :=
  match l with
  | [] => (acc, Ok acc)
  | Ok a :: l' => collect (acc ++ a) l'
  | Err e :: _ => (acc, Err e)
  end.
Definition enriched_call {A} (subs : list (res (list A))) (memo : option (list A)) : option (list A) * res (list A) :=
  match memo with
  | Some fs => (memo, Ok fs)
  | None => let '(acc, r) := collect [] subs in (Some acc, r)
  end.

(** * Repeated calls of CiarletElement.get_basis_functions(use_tensor_factorisation)
    (finite_element.py:722-740): the flag is only looked at when the memo is empty. [by_matrix] and
    [by_tensor] are the outcomes of the two computations. *)
Definition ciarlet_call {A} (by_matrix by_tensor : res (list A)) (memo : option (list A)) (tensor : bool)
  : option (list A) * res (list A) :=
  match memo with
  | Some fs => (memo, Ok fs)
  | None => match (if tensor then by_tensor else by_matrix) with
            | Ok fs => (Some fs, Ok fs)
            | Err e => (None, Err e)
            end
  end.
Fixpoint ciarlet_calls {A} (by_matrix by_tensor : res (list A)) (memo : option (list A)) (flags : list bool)
  : option (list A) * list (res (list A)) :=
  match flags with
  | [] => (memo, [])
  | t :: flags' => let '(m, r) := ciarlet_call by_matrix by_tensor memo t in
                   let '(m', rs) := ciarlet_calls by_matrix by_tensor m flags' in (m', r :: rs)
  end.

(** * tabulate_basis (finite_element.py:237-276) *)
(** Value of a basis function at a point: a number, or a tuple/matrix iterated over its entries. *)
Inductive value (A : Type) := Num (a : A) | Entries (l : list A).
Arguments Num {A}. Arguments Entries {A}.

Definition as_entries {A} (v : value A) : res (list A) :=
  match v with Num _ => Err TypeError | Entries l => Ok l end.

Fixpoint all_entries {A} (row : list (value A)) : res (list (list A)) :=
  match row with
  | [] => Ok []
  | v :: row' => rbind (as_entries v) (fun l => rmap (cons l) (all_entries row'))
  end.

(** python zip( *rows) *)
Fixpoint zip_first {A} (r0 : list A) (rs : list (list A)) : list (list A) :=
  match r0 with
  | [] => []
  | a :: r0' =>
    match concat_res (map (fun r => match r with [] => Err IndexError | h :: _ => Ok [h] end) rs) with
    | Ok hs => (a :: hs) :: zip_first r0' (map (@tl A) rs)
    | Err _ => []
    end
  end.
Definition zip_star {A} (rows : list (list A)) : list (list A) :=
  match rows with [] => [] | r0 :: rs => zip_first r0 rs end.

Inductive table (A : Type) :=
| Values (t : list (list (value A)))       (* per point a tuple of values *)
| Flat (t : list (list A))                 (* per point a flat tuple of numbers *)
| Nested (t : list (list (list A))).       (* per point a tuple of tuples *)
Arguments Values {A}. Arguments Flat {A}. Arguments Nested {A}.

Fixpoint map_res {A B} (f : A -> res B) (l : list A) : res (list B) :=
  match l with
  | [] => Ok []
  | a :: l' => rbind (f a) (fun b => rmap (cons b) (map_res f l'))
  end.

(** [tabbed] is the list built in lines 252-254. *)
Definition tabulate_basis {A} (range_dim : nat) (tabbed : list (list (value A))) (order : string) : res (table A) :=
  if range_dim =? 1 then Ok (Values tabbed)
  else if (order =? "xyz,xyz")%string then Ok (Values tabbed)
  else if (order =? "xxyyzz")%string then
    rmap Flat (map_res (fun row => rmap (fun r => List.concat (zip_star r)) (all_entries row)) tabbed)
  else if (order =? "xx,yy,zz")%string then
    rmap Nested (map_res (fun row => rmap zip_star (all_entries row)) tabbed)
  else if (order =? "xyzxyz")%string then
    rmap Flat (map_res (fun row => rmap (@List.concat A) (all_entries row)) tabbed)
  else Err ValueError.

(** * map_to_cell (finite_element.py:801-834) *)
(** A dof: its entity, its python type and its mapping name. *)
Record dof_info := { di_entity : entity; di_type : nat; di_mapping : option nat }.
Definition key := (nat * option nat)%type.
Definition key_eqb (a b : key) : bool :=
  (fst a =? fst b) && match snd a, snd b with None, None => true | Some x, Some y => x =? y | _, _ => false end.

(** finite_element.py:817-822, dictionary in insertion order *)
Fixpoint dict_append (k : key) (d : nat) (dict : list (key * list nat)) : list (key * list nat) :=
  match dict with
  | [] => [(k, [d])]
  | (k', ds) :: dict' => if key_eqb k k' then (k', ds ++ [d]) :: dict' else (k', ds) :: dict_append k d dict'
  end.

Fixpoint set_nth {A} (n : nat) (a : A) (l : list A) : list A :=
  match l, n with
  | [], _ => []
  | _ :: l', 0 => a :: l'
  | b :: l', S n' => b :: set_nth n' a l'
  end.

Section MapToCell.
Context {Fn : Type}.
(** ScalarFunction(0), line 810 *)
Variable zero_fn : Fn.
(** dof.perform_mapping for a dof of the given type and mapping applied to one function (functionals.py:117-131,
    434-447, 1176-1189): Err stands for MappingNotImplemented and for the failing assertion on a missing mapping. *)
Variable perform : key -> res (Fn -> Fn).

Definition dof_key (d : dof_info) : key := (di_type d, di_mapping d).

(** line 823-828 for one group *)
Definition write_group (basis : list Fn) (kds : key * list nat) (fs : list Fn) : res (list Fn) :=
  rbind (map_res (fun d => match nth_error basis d with Some b => Ok b | None => Err IndexError end) (snd kds)) (fun bs =>
  rbind (perform (fst kds)) (fun f =>
  Ok (fold_left (fun acc dm => set_nth (fst dm) (snd dm) acc) (combine (snd kds) (map f bs)) fs))).

Fixpoint write_groups (basis : list Fn) (dict : list (key * list nat)) (fs : list Fn) : res (list Fn) :=
  match dict with
  | [] => Ok fs
  | kds :: dict' => rbind (write_group basis kds fs) (write_groups basis dict')
  end.

Definition group_dofs (dofs : list dof_info) (ds : list nat) : list (key * list nat) :=
  fold_left (fun dict d => match nth_error dofs d with
                           | Some di => dict_append (dof_key di) d dict
                           | None => dict end) ds [].

Fixpoint map_entities (dofs : list dof_info) (basis : list Fn) (ents : list entity) (fs : list Fn) : res (list Fn) :=
  match ents with
  | [] => Ok fs
  | (dim, e) :: ents' =>
    rbind (write_groups basis (group_dofs dofs (entity_dofs_of (map di_entity dofs) dim e)) fs)
          (map_entities dofs basis ents')
  end.

(** lines 809-834; the treatment of piecewise functions (830-832) and the fall-back element
    (835-839) are left out: Err is returned where the fall-back would start. *)
Definition map_to_cell (counts : list nat) (dofs : list dof_info) (basis : list Fn) : res (list Fn) :=
  map_entities dofs basis (cell_entities counts) (map (fun _ => zero_fn) basis).
End MapToCell.
