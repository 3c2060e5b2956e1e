(** Model of /repo/symfem/caching.py and of the cache use in
    /repo/symfem/finite_element.py:676-709.

    Matrix entries are rational numbers in lowest terms; entries that are other
    sympy expressions (surds, symbols) are not modelled.  The file system is a
    map from file names to contents; CACHE_DIR (caching.py:10-17) is a constant
    prefix and is left out of the names. *)
From Coq Require Import String Ascii ZArith DecimalString List.
From Verif Require Import Base.
Import ListNotations.
Open Scope string_scope.

(** A sympy Integer (denominator 1) or Rational. *)
Definition rat := (Z * positive)%type.
Definition rat_eq_dec (a b : rat) : {a = b} + {a <> b}.
Proof. decide equality; [apply Pos.eq_dec|apply Z.eq_dec]. Defined.
(** sympy keeps rationals in lowest terms. *)
Definition canonical (q : rat) : Prop := Z.gcd (fst q) (Zpos (snd q)) = 1%Z.

(** Decimal text of an integer: repr(int), repr(sympy.Integer). *)
Definition Z_repr (z : Z) : string := NilZero.string_of_int (Z.to_int z).
(** f"{m[i,j]!r}" of caching.py:75: sympy prints p/q, and only p when q = 1. *)
Definition rat_repr (q : rat) : string :=
  if Pos.eqb (snd q) 1 then Z_repr (fst q)
  else (Z_repr (fst q) ++ "/" ++ Z_repr (Zpos (snd q)))%string.

(** str.join: caching.py:75 *)
Fixpoint join (c : ascii) (l : list string) : string :=
  match l with
  | [] => ""
  | [s] => s
  | s :: l' => s ++ String c (join c l')
  end.

(** str.split with a one character separator: caching.py:87 *)
Fixpoint split (c : ascii) (s : string) : list string :=
  match s with
  | EmptyString => [""]
  | String a s' =>
      if Ascii.eqb a c then "" :: split c s'
      else match split c s' with
           | h :: t => String a h :: t
           | [] => [String a ""]
           end
  end.

Definition matrix := list (list rat).
Definition rows (m : matrix) : nat := length m.
Definition cols (m : matrix) : nat := match m with [] => 0 | r :: _ => length r end.

(** caching.py:66-75 *)
Definition matrix_to_string (m : matrix) : string :=
  join ";" (map (fun r => join "," (map rat_repr r)) m).

(** Lowest terms: the sympy constructor Rational(p, q). *)
Definition mk_rat (p : Z) (q : positive) : rat :=
  let '(g, (a, b)) := Z.ggcd p (Zpos q) in
  (a, match b with Zpos b' => b' | _ => 1%positive end).

(** sympy.S(text), caching.py:87, on texts of the form [-]digits and
    [-]digits/digits.  Simplification: every other text is an error here (sympy
    would parse general expressions), and so is a zero denominator (zoo in
    sympy); leading zeros are accepted. None of these texts is a prefix of the
    repr of a rational number, except the ones sympy also rejects. *)
Definition parse_Z (s : string) : option Z := option_map Z.of_int (NilZero.int_of_string s).
Definition sympify (s : string) : res rat :=
  match split "/" s with
  | [a] => match parse_Z a with Some z => Ok (z, 1%positive) | None => Err SympifyError end
  | [a; b] =>
      match parse_Z a, parse_Z b with
      | Some p, Some (Zpos q) => Ok (mk_rat p q)
      | _, _ => Err SympifyError
      end
  | _ => Err SympifyError
  end.

Fixpoint sequence {A} (l : list (res A)) : res (list A) :=
  match l with
  | [] => Ok []
  | Err e :: _ => Err e
  | Ok a :: l' => match sequence l' with Ok t => Ok (a :: t) | Err e => Err e end
  end.

(** sympy.Matrix(list of lists): ragged rows raise ValueError. *)
Definition sympy_Matrix (l : list (list rat)) : res matrix :=
  if forallb (fun r => Nat.eqb (length r) (cols l)) l then Ok l else Err ValueError.

(** caching.py:78-87 *)
Definition matrix_from_string (s : string) : res matrix :=
  match sequence (map (fun i => sequence (map sympify (split "," i))) (split ";" s)) with
  | Ok l => sympy_Matrix l
  | Err e => Err e
  end.

(** The files of the cache directory. *)
Definition fs := string -> option string.
Definition empty_fs : fs := fun _ => None.
Definition write (f : fs) (name content : string) : fs :=
  fun g => if String.eqb g name then Some content else f g.

Section WithHash.
(** sha256(...).hexdigest(): an arbitrary function here. *)
Variable hash : string -> string.

(** caching.py:36-37 and 59-60; CACHE_FORMAT = "1" (caching.py:12). *)
Definition filename (matrix_type cache_id : string) : string :=
  matrix_type ++ "1" ++ "-" ++ hash cache_id ++ ".matrix".

(** caching.py:24-45 *)
Definition load_cached_matrix (f : fs) (matrix_type cache_id : string) (size : nat * nat)
  : res (option matrix) :=
  match f (filename matrix_type cache_id) with
  | None => Ok None                                        (* FileNotFoundError *)
  | Some text =>
      match matrix_from_string text with
      | Err e => Err e                                     (* not caught *)
      | Ok mat =>
          if orb (negb (Nat.eqb (rows mat) (fst size))) (negb (Nat.eqb (cols mat) (snd size)))
          then Ok None else Ok (Some mat)
      end
  end.

(** caching.py:48-63 *)
Definition save_cached_matrix (f : fs) (matrix_type cache_id : string) (m : matrix) : fs :=
  write f (filename matrix_type cache_id) (matrix_to_string m).

(** The states in which a process dying inside save_cached_matrix can leave the
    files: nothing done yet; or the file opened with mode "w" (which empties it)
    and the first characters of the text written (caching.py:62-63). *)
Inductive crash_state (f : fs) (matrix_type cache_id : string) (m : matrix) : fs -> Prop :=
| crash_before : crash_state f matrix_type cache_id m f
| crash_during : forall p q, matrix_to_string m = p ++ q ->
    crash_state f matrix_type cache_id m (write f (filename matrix_type cache_id) p).

(** Operations on the cache. *)
Inductive op := Save (matrix_type cache_id : string) (m : matrix)
              | Load (matrix_type cache_id : string) (size : nat * nat).
Definition step (f : fs) (o : op) : fs :=
  match o with Save t i m => save_cached_matrix f t i m | Load _ _ _ => f end.
Definition run (ops : list op) : fs := fold_left step ops empty_fs.

(** ** finite_element.py:676-709 *)
(** What the identifier is made of; options and revision are given as text:
    f"{self.init_kwargs()}" and f"{self.last_updated}". *)
Record element := { e_class : string; e_order : Z; e_vertices : list (list rat);
                    e_kwargs : string; e_updated : string }.

(** repr of a python tuple: "()", "(a,)", "(a, b)". *)
Fixpoint comma_sep (l : list string) : string :=
  match l with
  | [] => ""
  | [s] => s
  | s :: l' => s ++ ", " ++ comma_sep l'
  end.
Definition tuple_repr (l : list string) : string :=
  match l with
  | [s] => "(" ++ s ++ ",)"
  | _ => "(" ++ comma_sep l ++ ")"
  end.
Definition vertices_repr (v : list (list rat)) : string :=
  tuple_repr (map (fun p => tuple_repr (map rat_repr p)) v).

(** finite_element.py:689-692 *)
Definition cache_id (e : element) : string :=
  e_class e ++ " " ++ Z_repr (e_order e) ++ " " ++ vertices_repr (e_vertices e) ++ " "
  ++ e_kwargs e ++ " " ++ e_updated e.

(** finite_element.py:693 *)
Definition dual_type (inverse : bool) : string := if inverse then "dualinv" else "dual".

(** finite_element.py:688-698 with self.cache = True; [compute e inverse] stands for the
    uncached branch 700-709, [ndofs e] for len(self.dofs). *)
Variable compute : element -> bool -> matrix.
Variable ndofs : element -> nat.
Definition get_dual_matrix (f : fs) (e : element) (inverse : bool) : res (matrix * fs) :=
  match load_cached_matrix f (dual_type inverse) (cache_id e) (ndofs e, ndofs e) with
  | Err x => Err x
  | Ok (Some mat) => Ok (mat, f)
  | Ok None =>
      let mat := compute e inverse in
      Ok (mat, save_cached_matrix f (dual_type inverse) (cache_id e) mat)
  end.
Fixpoint run_dual (f : fs) (calls : list (element * bool)) : res fs :=
  match calls with
  | [] => Ok f
  | (e, b) :: rest =>
      match get_dual_matrix f e b with Err x => Err x | Ok (_, f') => run_dual f' rest end
  end.
End WithHash.
