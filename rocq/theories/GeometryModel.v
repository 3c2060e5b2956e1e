(** Model of symfem/geometry.py (point_in_interval etc.) and of the intersection of cells (symfem/references.py:55-95,
    260-297).

    Coordinates are real numbers.  [fl] says whether the computed quantities are sympy Floats: only then does
    the code snap values within 1e-8 of 0 or 1.  Rounding of Floats is not modelled.  Python's [and] evaluates
    its second operand only if the first is true; the operands here cannot raise, so plain [&&] is used. *)
From Coq Require Import Reals ZArith Arith Bool List.
From Verif Require Import Base ReferencesModel.
Import ListNotations.
Local Open Scope R_scope.

(** geometry.py:30-40 _is_close *)
Definition is_close (a b : R) : bool := if Rlt_dec (Rabs (a - b)) (1 / 10 ^ 8) then true else false.

(** The pattern [if isinstance(v, sympy.Float) and _is_close(v, c): v = sympy.Integer(c)], geometry.py:114-117,
    147-152, 182-189, 238-245. *)
Definition snap (fl : bool) (c v : R) : R := if fl && is_close v c then c else v.

(** geometry.py:73-83 _vsub, 86-99 _vdot: zip stops at the shorter argument. *)
Definition g_vsub (v w : pt) : pt := map (fun ij => fst ij - snd ij) (combine v w).
Definition g_vdot (v w : pt) : R := fold_left (fun out ij => out + fst ij * snd ij) (combine v w) 0.

(** Division: by zero sympy gives zoo or nan, and comparing those with a number raises TypeError. *)
Definition g_div (a b : R) : res R := if Req_EM_T b 0 then Err TypeError else Ok (a / b).

(** geometry.py:102-118 *)
Definition point_in_interval (fl : bool) (point : pt) (interval : list pt) : res bool :=
  rbind (get interval 0) (fun i0 => rbind (get interval 1) (fun i1 =>
  rbind (get (g_vsub point i0) 0) (fun a => rbind (get (g_vsub i1 i0) 0) (fun b =>
  rbind (g_div a b) (fun v =>
  let v := snap fl 0 v in
  let v := snap fl 1 v in
  Ok (rle 0 v && rle v 1)))))).

(** geometry.py:121-154 *)
Definition point_in_triangle (fl : bool) (point : pt) (triangle : list pt) : res bool :=
  rbind (get triangle 0) (fun t0 => rbind (get triangle 1) (fun t1 => rbind (get triangle 2) (fun t2 =>
  let v0 := g_vsub t2 t0 in
  let v1 := g_vsub t1 t0 in
  let v2 := g_vsub point t0 in
  let dot00 := g_vdot v0 v0 in
  let dot01 := g_vdot v0 v1 in
  let dot02 := g_vdot v0 v2 in
  let dot11 := g_vdot v1 v1 in
  let dot12 := g_vdot v1 v2 in
  let det := dot00 * dot11 - dot01 * dot01 in
  rbind (g_div (dot11 * dot02 - dot01 * dot12) det) (fun u =>
  rbind (g_div (dot00 * dot12 - dot01 * dot02) det) (fun v =>
  let uv := u + v in
  let u := snap fl 0 u in
  let v := snap fl 0 v in
  let uv := snap fl 1 uv in
  Ok (rle 0 u && rle 0 v && rle uv 1)))))).

(** geometry.py:172-175: the normal (-e[1], e[0]). *)
Definition g_normal (e : pt) : res pt :=
  rbind (get e 1) (fun e1 => rbind (get e 0) (fun e0 => Ok [- e1; e0])).

(** geometry.py:157-191 *)
Definition point_in_quadrilateral (fl : bool) (point : pt) (quad : list pt) : res bool :=
  rbind (get quad 0) (fun q0 => rbind (get quad 1) (fun q1 => rbind (get quad 2) (fun q2 => rbind (get quad 3) (fun q3 =>
  let e0 := g_vsub q1 q0 in
  let e1 := g_vsub q0 q2 in
  let e2 := g_vsub q3 q1 in
  let e3 := g_vsub q2 q3 in
  rbind (g_normal e0) (fun n0 => rbind (g_normal e1) (fun n1 =>
  rbind (g_normal e2) (fun n2 => rbind (g_normal e3) (fun n3 =>
  let d0 := snap fl 0 (g_vdot n0 (g_vsub point q0)) in
  let d1 := snap fl 0 (g_vdot n1 (g_vsub point q2)) in
  let d2 := snap fl 0 (g_vdot n2 (g_vsub point q1)) in
  let d3 := snap fl 0 (g_vdot n3 (g_vsub point q3)) in
  Ok (rle 0 d0 && rle 0 d1 && rle 0 d2 && rle 0 d3))))))))).

(** geometry.py:194-247 *)
Definition point_in_tetrahedron (fl : bool) (point : pt) (tet : list pt) : res bool :=
  rbind (get tet 0) (fun t0 => rbind (get tet 1) (fun t1 => rbind (get tet 2) (fun t2 => rbind (get tet 3) (fun t3 =>
  let v0 := g_vsub t3 t0 in
  let v1 := g_vsub t2 t0 in
  let v2 := g_vsub t1 t0 in
  let v3 := g_vsub point t0 in
  let dot00 := g_vdot v0 v0 in
  let dot01 := g_vdot v0 v1 in
  let dot02 := g_vdot v0 v2 in
  let dot03 := g_vdot v0 v3 in
  let dot11 := g_vdot v1 v1 in
  let dot12 := g_vdot v1 v2 in
  let dot13 := g_vdot v1 v3 in
  let dot22 := g_vdot v2 v2 in
  let dot23 := g_vdot v2 v3 in
  let det := dot00 * (dot11 * dot22 - dot12 * dot12)
             + dot01 * (dot02 * dot12 - dot01 * dot22)
             + dot02 * (dot01 * dot12 - dot11 * dot02) in
  let nu := (dot11 * dot22 - dot12 * dot12) * dot03
            + (dot02 * dot12 - dot01 * dot22) * dot13
            + (dot01 * dot12 - dot02 * dot11) * dot23 in
  let nv := (dot12 * dot02 - dot01 * dot22) * dot03
            + (dot00 * dot22 - dot02 * dot02) * dot13
            + (dot02 * dot01 - dot00 * dot12) * dot23 in
  let nw := (dot01 * dot12 - dot11 * dot02) * dot03
            + (dot01 * dot02 - dot00 * dot12) * dot13
            + (dot00 * dot11 - dot01 * dot01) * dot23 in
  rbind (g_div nu det) (fun u => rbind (g_div nv det) (fun v => rbind (g_div nw det) (fun w =>
  let uvw := u + v + w in
  let u := snap fl 0 u in
  let v := snap fl 0 v in
  let w := snap fl 0 w in
  let uvw := snap fl 1 uvw in
  Ok (rle 0 u && rle 0 v && rle 0 w && rle uvw 1)))))))).

(** references.py:55-95 _which_side.  [None] stands for python's None. *)
Inductive sign := Neg | Zero | Pos.
Definition sign_of (a : R) : sign := if Req_EM_T a 0 then Zero else if Rlt_dec 0 a then Pos else Neg.
Definition is_neg s := match s with Neg => true | _ => false end.
Definition is_zero s := match s with Zero => true | _ => false end.
Definition is_pos s := match s with Pos => true | _ => false end.

Definition side_value (p q v : pt) : res (option R) :=
  if Nat.eqb (length q) 2 then
    rbind (get v 0) (fun v0 => rbind (get p 0) (fun p0 => rbind (get q 1) (fun q1 => rbind (get p 1) (fun p1 =>
    rbind (get v 1) (fun v1 => rbind (get q 0) (fun q0 =>
    Ok (Some ((v0 - p0) * (q1 - p1) - (v1 - p1) * (q0 - p0)))))))))
  else if Nat.eqb (length q) 3 then
    rbind (get v 0) (fun v0 => rbind (get p 0) (fun p0 => rbind (get q 0) (fun q0 => rbind (get v 1) (fun v1 =>
    rbind (get p 1) (fun p1 => rbind (get q 1) (fun q1 => rbind (get v 2) (fun v2 => rbind (get p 2) (fun p2 =>
    rbind (get q 2) (fun q2 =>
    Ok (Some ((v0 - p0) * q0 + (v1 - p1) * q1 + (v2 - p2) * q2)))))))))))
  else Ok None.

(** The loop references.py:69-81; [None]: the early return of line 75. *)
Fixpoint sides_of (p q : pt) (vs : list pt) : res (option (list sign)) :=
  match vs with
  | [] => Ok (Some [])
  | v :: vs' =>
      rbind (side_value p q v) (fun c =>
      match c with
      | None => Ok None
      | Some c => rmap (option_map (cons (sign_of c))) (sides_of p q vs')
      end)
  end.

Definition classify (sides : list sign) : option Z :=
  if existsb is_neg sides && existsb is_pos sides then None
  else if existsb is_pos sides then Some (if existsb is_zero sides then 1 else 2)%Z
  else if existsb is_neg sides then Some (if existsb is_zero sides then -1 else -2)%Z
  else Some 0%Z.

Definition which_side (vs : list pt) (p q : pt) : res (option Z) :=
  rmap (fun o => match o with None => None | Some s => classify s end) (sides_of p q vs).

(** references.py:285 and 294: [dir1 is not None and dir2 is not None and dir1 * dir2 < 0]. *)
Definition opposite (d1 d2 : option Z) : bool :=
  match d1, d2 with Some a, Some b => Z.ltb (a * b) 0 | _, _ => false end.

(** The loop references.py:271-275: do all vertices of cell1 lie in cell2?  NotImplementedError is caught
    (276-277) and counts as no; other exceptions propagate. *)
Fixpoint all_contained (c2 : reference) (vs : list pt) : res bool :=
  match vs with
  | [] => Ok true
  | v :: vs' => rbind (contains c2 v) (fun b => if b then all_contained c2 vs' else Ok false)
  end.
Definition contained_in (c1 c2 : reference) : res bool :=
  match all_contained c2 (r_vertices c1) with Err NotImplementedError => Ok false | r => r end.

(** references.py:279-286: is some edge of cell1 a separating line? *)
Fixpoint separated_by_edge (c1 c2 : reference) (es : list (list nat)) : res bool :=
  match es with
  | [] => Ok false
  | e :: es' =>
      rbind (get e 0) (fun i => rbind (get e 1) (fun j =>
      rbind (get (r_vertices c1) i) (fun p => rbind (get (r_vertices c1) j) (fun q =>
      rbind (which_side (r_vertices c1) p q) (fun d1 =>
      rbind (which_side (r_vertices c2) p q) (fun d2 =>
      if opposite d1 d2 then Ok true else separated_by_edge c1 c2 es'))))))
  end.

(** references.py:287-295: is some face of cell1 a separating plane? *)
Fixpoint separated_by_face (c1 c2 : reference) (is : list nat) : res bool :=
  match is with
  | [] => Ok false
  | i :: is' =>
      rbind (sub_entity c1 2 i false) (fun face =>
      let p := midpoint face in
      rbind (normal face) (fun n =>
      rbind (which_side (r_vertices c1) p n) (fun d1 =>
      rbind (which_side (r_vertices c2) p n) (fun d2 =>
      if opposite d1 d2 then Ok true else separated_by_face c1 c2 is'))))
  end.

(** references.py:278-295 for one order of the two cells. *)
Definition separates (c1 c2 : reference) : res bool :=
  rbind (if Nat.eqb (gdim c1) 2 then separated_by_edge c1 c2 (edges (r_type c1)) else Ok false) (fun b =>
  if b then Ok true
  else if Nat.eqb (gdim c1) 3 then
    rbind (sub_entity_count c1 2) (fun n => separated_by_face c1 c2 (range n))
  else Ok false).

(** references.py:260-297 *)
Definition intersection (self other : reference) : res (option reference) :=
  if negb (Nat.eqb (gdim self) (gdim other)) then Err ValueError
  else
    rbind (contained_in self other) (fun b => if b then Ok (Some self) else
    rbind (contained_in other self) (fun b => if b then Ok (Some other) else
    rbind (separates self other) (fun b => if b then Ok None else
    rbind (separates other self) (fun b => if b then Ok None else
    Err NotImplementedError)))).
