(** Model of symfem/moments.py: the degrees of freedom defined by integral moments on sub-entities.

    The classes of functionals and elements that the caller passes are outside the model: [cls] is the type of
    python classes, [min_order] their attribute min_order (an error where comparing it with an int is one:
    some elements have a dict), and [dof_count E c order kwargs] the number of degrees of freedom of
    E(default reference of type c, order, **kwargs), or the error that its constructor raises.  A degree of
    freedom is represented by the arguments given to its class (moments.py:112). *)
From Coq Require Import String ZArith Arith Bool List.
From Verif Require Import Base ReferencesModel.
Import ListNotations.
Local Open Scope string_scope.

(** references.py:775, 904, 1048, 1233, 1426, 1647, 1897, 2116, 2346 *)
Definition cell_name (c : cell_type) : string :=
  match c with
  | CPoint => "point" | CInterval => "interval" | CTriangle => "triangle" | CTetrahedron => "tetrahedron"
  | CQuadrilateral => "quadrilateral" | CHexahedron => "hexahedron" | CPrism => "prism" | CPyramid => "pyramid"
  | CDualPolygon _ => "dual polygon"
  end.

Section Moments.
Variable cls : Type.
Variable kwargs : Type.
Variable no_kwargs : kwargs.

(** moments.py:10-19: the values that appear in a moment specification.  A dict is either keyed by cell names
    (a specification) or keyword arguments; [MDict] keeps both readings. *)
Inductive mval :=
| MType (c : cls)
| MInt (z : Z)
| MStr (s : string)
| MDict (entries : list (string * mval)) (as_kwargs : kwargs)
| MTuple (items : list mval)
| MOther.

Record moment := { m_class : cls; m_element : cls; m_order : Z; m_mapping : option string; m_kwargs : kwargs }.

Definition str_of (v : mval) : option string := match v with MStr s => Some s | _ => None end.

(** moments.py:36-49: item -k of a tuple is item length - k *)
Definition from_end (items : list mval) (k : nat) : res mval :=
  if (k <=? length items)%nat then get items (length items - k) else Err IndexError.

Definition extract_tuple (items : list mval) : res moment :=
  rbind (from_end items 1) (fun last =>
  rbind (match last with
         | MDict _ kw => rbind (from_end items 2) (fun v => Ok (str_of v, kw))
         | v => Ok (str_of v, no_kwargs)
         end) (fun mk =>
  rbind (get items 0) (fun a =>
  match a with
  | MType ca =>
      rbind (get items 1) (fun b =>
      match b with
      | MType cb =>
          rbind (get items 2) (fun c =>
          match c with
          | MInt o => Ok {| m_class := ca; m_element := cb; m_order := o; m_mapping := fst mk; m_kwargs := snd mk |}
          | _ => Err AssertionError
          end)
      | _ => Err AssertionError
      end)
  | _ => Err AssertionError
  end))).

(** moments.py:22-51.  Other values than dicts and tuples: an int cannot be indexed, the first character of a
    string is not a type. *)
Fixpoint extract_moment_data (moment_data : mval) (sub_type : string) : res moment :=
  match moment_data with
  | MDict entries _ =>
      (fix look (l : list (string * mval)) : res moment :=
         match l with
         | [] => Err KeyError
         | (k, v) :: l' => if String.eqb k sub_type then extract_moment_data v sub_type else look l'
         end) entries
  | MTuple items => extract_tuple items
  | MStr "" => Err IndexError
  | MStr _ => Err AssertionError
  | MType _ | MInt _ | MOther => Err TypeError
  end.

Variable min_order : cls -> res Z.
Variable dof_count : cls -> cell_type -> Z -> kwargs -> res nat.

Record dof := {
  d_class : cls; d_element : cls; d_cell : cell_type; d_order : Z; d_kwargs : kwargs;
  d_number : nat; d_entity : Z * nat; d_mapping : option string }.

(** The list sub_entity_types has four entries and python accepts negative indices. *)
Definition sub_entity_types_z (c : cell_type) (dim : Z) : res entity_types :=
  if (dim <? -4)%Z then Err IndexError
  else sub_entity_types c (Z.to_nat (if (dim <? 0)%Z then dim + 4 else dim)%Z).

(** moments.py:101-112: one sub-entity. *)
Definition entity_dofs (reference : reference) (dim : Z) (moment_data : mval) (i : nat) : res (list dof) :=
  rbind (sub_entity reference (Z.to_nat dim) i false) (fun sub_ref =>
  rbind (extract_moment_data moment_data (cell_name (r_type sub_ref))) (fun m =>
  rbind (min_order (m_element m)) (fun lowest =>
  if (m_order m <? lowest)%Z then Ok [] else
  rbind (dof_count (m_element m) (r_type sub_ref) (m_order m) (m_kwargs m)) (fun n =>
  Ok (map (fun dn => {| d_class := m_class m; d_element := m_element m; d_cell := r_type sub_ref;
                        d_order := m_order m; d_kwargs := m_kwargs m; d_number := dn;
                        d_entity := (dim, i); d_mapping := m_mapping m |}) (range n)))))).

(** moments.py:94-112: one of the keyword arguments. *)
Definition slot_dofs (reference : reference) (dim : Z) (moment_data : option mval) : res (list dof) :=
  match moment_data with
  | None => Ok []
  | Some md =>
      rbind (sub_entity_types_z (r_type reference) dim) (fun sub_type =>
      match sub_type with
      | NoType => Ok []
      | _ =>
          if (0 <? dim)%Z then
            rbind (sub_entities reference (Z.to_nat dim)) (fun vs =>
            rmap (@concat dof) (map_r (entity_dofs reference dim md) (range (length vs))))
          else Err AssertionError
      end)
  end.

(** moments.py:54-63: the keyword arguments. *)
Record moment_args := { vertices : option mval; edges_ : option mval; faces_ : option mval; volumes_ : option mval;
  cells : option mval; facets : option mval; ridges : option mval; peaks : option mval }.

(** moments.py:84-93 *)
Definition slots (reference : reference) (a : moment_args) : list (Z * option mval) :=
  let tdim := Z.of_nat (tdim (r_type reference)) in
  [(0, vertices a); (1, edges_ a); (2, faces_ a); (3, volumes_ a);
   (tdim - 3, peaks a); (tdim - 2, ridges a); (tdim - 1, facets a); (tdim, cells a)]%Z.

(** moments.py:54-113 *)
Definition make_integral_moment_dofs (reference : reference) (a : moment_args) : res (list dof) :=
  rmap (@concat dof) (map_r (fun s => slot_dofs reference (fst s) (snd s)) (slots reference a)).
End Moments.
