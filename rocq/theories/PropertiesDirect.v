(** C61, C79, C80: the direct serendipity element. *)
From Coquelicot Require Import Coquelicot.
From Coq Require Import String Arith Bool Reals Lia Lra List.
From Verif Require Import Base PolyLib PolySetsModel ReferencesModel LinAlg UnisolvenceProofs PointsModel PointsSpec
  DirectModel DirectSpec DirectProofs DirectSpan.
From Verif Require FamiliesModel FamiliesSpec PropertiesFamilies.
Import ListNotations.
Local Open Scope string_scope.
Local Open Scope R_scope.
Local Open Scope list_scope.

Notation direct := (make_direct_serendipity (default CQuadrilateral)).
Notation serendipity n := (FamiliesModel.create FamiliesModel.Serendipity (default CQuadrilateral) n "equispaced").

(** * C61: as many functions as the serendipity element.  This holds at the orders 1, 2, 3 and 8 and at no other: the interior
    functions are made with DPC of order 4 where order - 4 is meant (direct_serendipity.py:76). *)
Theorem C61_dimension_partial : forall n, (1 <= n)%nat -> exists e s, direct n = Ok e /\ serendipity n = Ok s /\
  length e = (4 * n + if 4 <=? n then 15 else 0)%nat /\
  (length e = length (FamiliesModel.fe_poly s) <-> n = 1%nat \/ n = 2%nat \/ n = 3%nat \/ n = 8%nat).
Proof.
  intros n Hn. destruct (direct_made n) as (e & phi & E & _).
  destruct (PropertiesFamilies.C18_default_cells_partial FamiliesModel.Serendipity CQuadrilateral n) as (s & S & D & _); [right; left; reflexivity|split; [cbn; lia|exact I]|discriminate|].
  exists e, s. split; [exact E|]. split; [exact S|]. pose proof (direct_length n e Hn E) as L. unfold direct_dim in L. split; [exact L|]. rewrite L. cbn [FamiliesSpec.six_dim] in D.
  destruct (Nat.leb_spec 4 n) as [G|G].
  - destruct (le_lt_dec n 10) as [B|B].
    + do 11 (destruct n as [|n]; [cbn in D; lia|]). lia.
    + split; [|lia]. intros Q. exfalso. assert (72 <= (n - 3) * (n - 2))%nat by (change 72%nat with (8 * 9)%nat; apply Nat.mul_le_mono; lia). lia.
  - destruct n as [|[|[|[|n]]]]; cbn in D; lia.
Qed.

Example C61_dimension_partial_example : exists e s, direct 8 = Ok e /\ serendipity 8 = Ok s /\ length e = 47%nat /\ length (FamiliesModel.fe_poly s) = 47%nat.
Proof. destruct (C61_dimension_partial 8) as (e & s & E & S & L & Q); [lia|]. exists e, s. cbn [Nat.leb Nat.mul Nat.add] in L. repeat split; try assumption. rewrite <- L. symmetry. apply Q. tauto. Qed.
Theorem C61_dimension_refuted : exists n, (1 <= n)%nat /\ exists e s, direct n = Ok e /\ serendipity n = Ok s /\ length e <> length (FamiliesModel.fe_poly s).
Proof. exists 4%nat. split; [lia|]. destruct (C61_dimension_partial 4) as (e & s & E & S & L & Q); [lia|]. exists e, s. repeat split; try assumption. intros H. apply Q in H. lia. Qed.
Example C61_dimension_refuted_example : exists e s, direct 4 = Ok e /\ serendipity 4 = Ok s /\ length e = 31%nat /\ length (FamiliesModel.fe_poly s) = 17%nat.
Proof.
  destruct (C61_dimension_partial 4) as (e & s & E & S & L & Q); [lia|]. exists e, s. repeat split; try assumption.
  destruct (PropertiesFamilies.C18_default_cells_partial FamiliesModel.Serendipity CQuadrilateral 4) as (s' & S' & D & _); [right; left; reflexivity|split; [cbn; lia|exact I]|discriminate|].
  pose proof (eq_trans (eq_sym S) S') as T. injection T as ->. cbn in D. lia.
Qed.

(** * C79: the functions are linearly independent on the cell, and their span contains all polynomials of the degree of the element *)
Theorem C79_independent : forall n, (1 <= n)%nat -> exists e, direct n = Ok e /\ independent_on_square e.
Proof. intros n Hn. destruct (direct_made n) as (e & phi & E & _). exists e. split; [exact E|]. exact (direct_independent n e Hn E). Qed.
Example C79_independent_example : exists e, direct 12 = Ok e /\ length e = 63%nat /\ independent_on_square e.
Proof. destruct (C79_independent 12) as (e & E & I); [lia|]. exists e. split; [exact E|]. split; [|exact I]. exact (direct_length 12 e ltac:(lia) E). Qed.
(** Full statement: every polynomial of degree n is reproduced, for every n.  This holds for n <= 8 ... *)
Theorem C79_reproduces_partial : forall n f, (1 <= n <= 8)%nat -> P_space 2 n f -> exists e, direct n = Ok e /\ reproduces e f.
Proof. intros n f Hn Hf. destruct (direct_made n) as (e & phi & E & _). exists e. split; [exact E|]. exact (direct_reproduces n e f Hn E Hf). Qed.
Lemma product_P n i j : (i + j <= n)%nat -> P_space 2 n (fun v => v 0%nat ^ i * v 1%nat ^ j).
Proof. intros H. apply (poly_space_ext _ (meval [i; j])); [intros v; apply two_monomial|]. apply poly_space_mono. split; [reflexivity|]. cbn [mdeg]. lia. Qed.
Example C79_reproduces_partial_example : exists e, direct 5 = Ok e /\ reproduces e (fun v => v 0%nat ^ 3 * v 1%nat ^ 2).
Proof. apply C79_reproduces_partial; [lia|]. apply product_P. lia. Qed.
(** ... and fails for every n >= 9. *)
Theorem C79_reproduces_refuted : exists n0, forall n, (n0 <= n)%nat -> exists e f, direct n = Ok e /\ P_space 2 n f /\ ~ reproduces e f.
Proof.
  exists 9%nat. intros n Hn. destruct (direct_made n) as (e & phi & E & _). exists e, (fun v => v 0%nat ^ 7 * v 1%nat ^ 2). split; [exact E|]. split; [apply product_P; lia|]. exact (direct_misses n e E).
Qed.
Example C79_reproduces_refuted_example : exists e, direct 9 = Ok e /\ length e = 51%nat /\ P_dim 2 9 = 55%nat /\ ~ reproduces e (fun v => v 0%nat ^ 7 * v 1%nat ^ 2).
Proof. destruct (direct_made 9) as (e & phi & E & _). exists e. split; [exact E|]. split; [exact (direct_length 9 e ltac:(lia) E)|]. split; [reflexivity|]. exact (direct_misses 9 e E). Qed.

(** * C80: the announced continuity C0 *)
Theorem C80_order_one_partial : exists e, direct 1 = Ok e /\ direct_C0 e.
Proof.
  eexists. split; [reflexivity|]. intros f k n i Hf Hi N1 N2 N3 s Hs. rewrite app_nil_r in Hf. cbn in Hf. unfold edge_point, square_vertex.
  destruct i as [|[|[|[|i]]]]; [| | | |lia]; cbn [square_edge nth fst snd] in *;
    destruct Hf as [Hf|[Hf|[Hf|[Hf|[]]]]]; injection Hf as <- <- <-; cbn [Nat.testbit Nat.odd Nat.even negb Nat.div2]; try ring; exfalso; first [apply N2; reflexivity|apply N3; reflexivity].
Qed.
Example C80_order_one_partial_example : exists e f, direct 1 = Ok e /\ In (f, (0, 3)%nat) e /\ f (edge_point 0 (1/3)) = 0 /\ f (edge_point 2 (1/3)) = 1/3.
Proof. eexists _, _. split; [reflexivity|]. split; [rewrite app_nil_r; right; right; right; left; reflexivity|]. split; cbv beta; unfold edge_point, square_vertex; cbn [square_edge nth fst snd Nat.testbit Nat.odd Nat.even negb Nat.div2]; lra. Qed.
Theorem C80_refuted : forall n, (2 <= n)%nat -> exists e f s, direct n = Ok e /\ In (f, (1, 1)%nat) e /\ 0 <= s <= 1 /\ f (edge_point 2 s) <> 0 /\ ~ direct_C0 e.
Proof.
  intros n Hn. destruct (direct_made n) as (e & phi & E & _ & D & _). exists e, (fun v => (1 - v 1%nat) * v 1%nat * ds_lambda (v 1%nat) ^ 0), (1/2). split; [exact E|].
  assert (I : In ((fun v : point => (1 - v 1%nat) * v 1%nat * ds_lambda (v 1%nat) ^ 0), (1, 1)%nat) e).
  { rewrite D. apply in_or_app. right. apply in_or_app. left. rewrite (proj2 (Nat.leb_le 2 n) Hn). apply in_or_app. left. apply in_or_app. left. apply in_map_iff. exists 0%nat. split; [reflexivity|]. apply in_range. lia. }
  assert (V : (1 - edge_point 2 (1/2) 1%nat) * edge_point 2 (1/2) 1%nat * ds_lambda (edge_point 2 (1/2) 1%nat) ^ 0 <> 0) by (unfold edge_point, square_vertex; cbn; lra).
  split; [exact I|]. split; [lra|]. split; [exact V|]. intros C. apply V. apply (C _ 1%nat 1%nat 2%nat I); try lia; try discriminate. lra.
Qed.
Example C80_refuted_example : exists e, direct 2 = Ok e /\ length e = 8%nat /\ ~ direct_C0 e.
Proof. destruct (C80_refuted 2) as (e & f & s & E & _ & _ & _ & N); [lia|]. exists e. split; [exact E|]. split; [exact (direct_length 2 e ltac:(lia) E)|exact N]. Qed.

Print Assumptions C61_dimension_partial.
Print Assumptions C61_dimension_refuted.
Print Assumptions C79_independent.
Print Assumptions C79_reproduces_partial.
Print Assumptions C79_reproduces_refuted.
Print Assumptions C80_order_one_partial.
Print Assumptions C80_refuted.
