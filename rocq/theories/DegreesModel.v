(** Model of the attributes lagrange_subdegree, lagrange_superdegree, polynomial_subdegree and polynomial_superdegree
    of the element classes of FamiliesModel.  Files of /repo/symfem/elements: lagrange.py, rt.py, nedelec.py, bdm.py,
    bdfm.py, q.py, dpc.py, serendipity.py, trimmed_serendipity.py, abf.py, ac.py, bddf.py, mtw.py, nedelec_prism.py,
    lagrange_prism.py, regge.py, hhj.py, huang_zhang.py, aw.py, taylor.py.  All of them are integers for these classes
    (never None); // is division rounded down. *)
From Coq Require Import ZArith Bool List.
From Verif Require Import ReferencesModel FamiliesModel.
Local Open Scope Z_scope.

(** lagrange.py:92-94, 169-171, 239-241, 332-334; rt.py:59-61; nedelec.py:54-56, 110-112; bdm.py:56-58; bdfm.py:115-120;
    q.py:150-152, 218-220, 278-280, 337-339; dpc.py:75-77, 140-142; serendipity.py:70-74, 132-136, 193-195;
    trimmed_serendipity.py:124-126, 225-227; abf.py:81-83; ac.py:79-84; bddf.py:82-84; mtw.py:102-104;
    nedelec_prism.py:103-105; lagrange_prism.py:121-123, 186-188; regge.py:179-181, 407-409; hhj.py:126-128;
    huang_zhang.py:80-82; aw.py:136-138, 237-239; taylor.py:45-47 *)
Definition lagrange_subdegree (f : family) (c : cell_type) (n : Z) : Z :=
  let d := Z.of_nat (tdim c) in
  match f with
  | Lagrange | VectorLagrange | MatrixLagrange | SymmetricMatrixLagrange | NedelecSecondKind | BDM | Q | VectorQ
  | ArnoldBoffiFalk | LagrangePrism | VectorLagrangePrism | Regge | ReggeTP | HellanHerrmannJohnson | Taylor => n
  | RaviartThomas | NedelecFirstKind | QNedelec | QRaviartThomas | NedelecPrism | HuangZhang | ArnoldWinther
  | NonConformingArnoldWinther => n - 1
  | BDFM => match c with CTriangle | CTetrahedron => n - 1 | _ => n / d end
  | DPC | VectorDPC | SerendipityDiv => n / d
  | Serendipity => if n <? d then 1 else n / d
  | SerendipityCurl => if (n =? 2) && (d =? 3) then 1 else n / d
  | TrimmedSerendipityHcurl => (n + d - 1) / (d + 1)
  | TrimmedSerendipityHdiv => (n + 1) / (d + 1)
  | ArbogastCorrea => if n <? 2 then n else n / 2
  | BDDF => n / 3
  | MardalTaiWinther => 1
  end.

(** lagrange.py:96-98, 173-175, 243-245, 336-338; rt.py:63-65; nedelec.py:58-60, 114-116; bdm.py:60-62; bdfm.py:122-124;
    q.py:154-156, 222-224, 282-284, 341-343; dpc.py:79-81, 144-146; serendipity.py:76-78, 138-140, 197-199;
    trimmed_serendipity.py:128-130, 229-231; abf.py:85-87; ac.py:86-88; bddf.py:86-88; mtw.py:106-108;
    nedelec_prism.py:107-109; lagrange_prism.py:125-127, 190-192; regge.py:183-185, 411-413; hhj.py:130-132;
    huang_zhang.py:84-86; aw.py:140-142, 241-243; taylor.py:49-51 *)
Definition lagrange_superdegree (f : family) (c : cell_type) (n : Z) : Z :=
  match f with
  | SerendipityCurl | SerendipityDiv | ArbogastCorrea | BDDF | ReggeTP => n + 1
  | ArnoldBoffiFalk => n + 2
  | MardalTaiWinther => n + Z.of_nat (tdim c) - 2
  | _ => n
  end.

(** lagrange.py:100-102, 177-179, 247-249, 340-342; rt.py:67-69; nedelec.py:62-64, 118-120; bdm.py:64-66; bdfm.py:126-128;
    q.py:158-160, 226-228, 286-288, 345-347; dpc.py:83-85, 148-150; serendipity.py:80-82, 142-144, 201-203;
    trimmed_serendipity.py:132-134, 233-235; abf.py:89-91; ac.py:90-92; bddf.py:90-92; mtw.py:110-112;
    nedelec_prism.py:111-113; lagrange_prism.py:129-131, 194-196; regge.py:187-189, 415-417; hhj.py:134-136;
    huang_zhang.py:88-90; aw.py:144-146, 245-247; taylor.py:53-55 *)
Definition polynomial_subdegree (f : family) (c : cell_type) (n : Z) : Z :=
  match f with
  | RaviartThomas | NedelecFirstKind | QNedelec | QRaviartThomas | NedelecPrism | HuangZhang | ArnoldWinther
  | NonConformingArnoldWinther | BDFM | TrimmedSerendipityHcurl | TrimmedSerendipityHdiv => n - 1
  | MardalTaiWinther => lagrange_subdegree f c n
  | _ => n
  end.

(** lagrange.py:104-106, 181-183, 251-253, 344-346; rt.py:71-73; nedelec.py:66-68, 122-124; bdm.py:68-70; bdfm.py:130-132;
    q.py:162-164, 230-232, 290-292, 349-351; dpc.py:87-89, 152-154; serendipity.py:84-86, 146-148, 205-207;
    trimmed_serendipity.py:136-138, 237-239; abf.py:93-95; ac.py:94-96; bddf.py:94-96; mtw.py:114-116;
    nedelec_prism.py:115-117; lagrange_prism.py:133-135, 198-200; regge.py:191-193, 419-421; hhj.py:138-140;
    huang_zhang.py:92-94; aw.py:148-150, 249-251; taylor.py:57-59 *)
Definition polynomial_superdegree (f : family) (c : cell_type) (n : Z) : Z :=
  let d := Z.of_nat (tdim c) in
  match f with
  | Q | VectorQ => n * d
  | QNedelec => n * d - 1
  | QRaviartThomas => (n - 1) * d + 1
  | Serendipity | SerendipityCurl => n + d - 1
  | SerendipityDiv | ArbogastCorrea | BDDF => n + 1
  | TrimmedSerendipityHcurl => n + d - 2
  | ArnoldBoffiFalk => n * 2 + 2
  | MardalTaiWinther => lagrange_superdegree f c n
  | LagrangePrism | VectorLagrangePrism | NedelecPrism => n * 2
  | ReggeTP => (n + 1) * d - 1
  | HuangZhang => n * 2 - 1
  | _ => n
  end.
