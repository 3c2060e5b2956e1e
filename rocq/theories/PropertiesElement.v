(** Properties C21, C22, C23, C62, C65: element bookkeeping. *)
From Coq Require Import String Arith Bool Lia Permutation Sorted List.
From Verif Require Import Base ElementModel ElementProofs.
Import ListNotations.

(** sub-entity counts of a triangle; entities of the dofs of a P2 element on it *)
Definition tri_counts := [3; 3; 1].
Definition P2_entities : list entity := [(0,0); (0,1); (0,2); (1,0); (1,1); (1,2)].
Lemma P2_on_triangle : forall de, In de P2_entities -> is_entity tri_counts de.
Proof. intros de H. apply in_cell_entities. simpl in *. tauto. Qed.

(** * C21: [partitions counts n f] says that the lists f d k are increasing, contain only
    numbers below n, and that each number below n is in the list of exactly one (d, k),
    a sub-entity of the cell. *)
Theorem C21_entity_dofs_partition : forall counts (dofs : list entity),
  (forall de, In de dofs -> is_entity counts de) ->
  partitions counts (length dofs) (entity_dofs_of dofs) /\
  (forall d k i, In i (entity_dofs_of dofs d k) <-> nth_error dofs i = Some (d, k)).
Proof.
  intros counts dofs H. exact (conj (entity_dofs_partition counts dofs H) (in_entity_dofs_of dofs)).
Qed.
Print Assumptions C21_entity_dofs_partition.
Example C21_case : partitions tri_counts 6 (entity_dofs_of P2_entities) /\ entity_dofs_of P2_entities 1 2 = [5].
Proof. split; [exact (proj1 (C21_entity_dofs_partition tri_counts P2_entities P2_on_triangle))|reflexivity]. Qed.

(** Elements given directly by their basis functions and the entity of each: one degree of freedom per function, the
    functions returned as they were given, and dof i on the i-th entity.  The constructor does not compare the two
    lengths: the entity dofs partition 0, ..., space_dim-1 exactly when they agree. *)
Theorem C21_direct_elements : forall (Fn : Type) counts ref dom rd shape (fns : list Fn) ents,
  (forall de, In de ents -> is_entity counts de) ->
  let e := direct_element ref dom rd shape fns ents in
  el_space_dim e = length fns /\ el_basis e = Ok fns /\
  (forall d k i, In i (el_entity_dofs e d k) <-> nth_error ents i = Some (d, k)) /\
  (partitions counts (el_space_dim e) (el_entity_dofs e) <-> length fns = length ents).
Proof.
  intros Fn counts ref dom rd shape fns ents H e. split; [reflexivity|]. split; [reflexivity|].
  split; [intros d k i; apply in_entity_dofs_of|]. simpl.
  assert (P := entity_dofs_partition counts ents H). split; [|intros ->; exact P].
  intros (_ & Q1 & Q2). destruct P as (_ & P1 & P2).
  destruct (Nat.lt_trichotomy (length fns) (length ents)) as [L|[L|L]]; [|exact L|].
  - destruct (P2 (length fns) L) as (de & _ & Hin & _). specialize (Q1 _ _ _ Hin). lia.
  - destruct (Q2 (length ents) L) as (de & _ & Hin & _). specialize (P1 _ _ _ Hin). lia.
Qed.
Print Assumptions C21_direct_elements.
Example C21_direct_case : (forall de, In de [(0,0); (0,1); (0,2)] -> is_entity tri_counts de) /\
  partitions tri_counts 3 (el_entity_dofs (direct_element 0 2 1 None [10;11;12] [(0,0); (0,1); (0,2)])).
Proof.
  assert (H : forall de, In de [(0,0); (0,1); (0,2)] -> is_entity tri_counts de).
  { intros de H. apply P2_on_triangle. simpl in *. tauto. }
  split; [exact H|]. apply (C21_direct_elements nat tri_counts 0 2 1 None [10;11;12] _ H). reflexivity.
Qed.

(** * C22 *)
Theorem C22_enriched_element : forall (Fn : Type) counts (subs : list (element Fn)) e,
  Forall (wf_element counts) subs -> enriched_element subs = Ok e ->
  (* the sub-elements agree *)
  (forall x, In x subs -> el_reference x = el_reference e /\ el_domain_dim x = el_domain_dim e
                          /\ el_range_dim x = el_range_dim e /\ el_range_shape x = el_range_shape e) /\
  (* it again is an element: entity dofs partition 0..space_dim-1, ... *)
  wf_element counts e /\ el_space_dim e = list_sum (map el_space_dim subs) /\
  (* dof number (sum of the dimensions of the earlier sub-elements) + l is dof l of sub-element s *)
  (forall fs s x l, el_basis e = Ok fs -> nth_error subs s = Some x -> l < el_space_dim x ->
     exists xs, el_basis x = Ok xs /\
       nth_error fs (list_sum (map el_space_dim (firstn s subs)) + l) = nth_error xs l /\
       nth_error (el_dof_entities e) (list_sum (map el_space_dim (firstn s subs)) + l) = nth_error (el_dof_entities x) l).
Proof.
  intros Fn counts subs e Hs He. split; [|split; [exact (enriched_wf counts subs e Hs He)|split]].
  - unfold enriched_element in He. destruct subs as [|e0 subs']; [discriminate|].
    destruct (forallb (compatible e0) (e0 :: subs')) eqn:Hc; [|discriminate]. injection He as <-.
    intros x Hx. rewrite forallb_forall in Hc. specialize (Hc x Hx). unfold compatible in Hc.
    rewrite !andb_true_iff, !Nat.eqb_eq in Hc. destruct Hc as [[[H1 H2] H3] H4]. simpl. repeat split; try assumption.
    destruct (el_range_shape x) as [a|], (el_range_shape e0) as [b|]; try discriminate; [|reflexivity].
    f_equal. simpl in H4. revert b H4. induction a as [|n a IH]; intros [|m b] H4; try discriminate; [reflexivity|].
    simpl in H4. apply andb_true_iff in H4. destruct H4 as [H4 H5]. apply Nat.eqb_eq in H4. subst. f_equal. apply IH. exact H5.
  - unfold enriched_element in He. destruct subs; [discriminate|]. destruct (forallb _ _); [|discriminate]. injection He as <-. reflexivity.
  - intros fs s x l Hb. exact (proj2 (enriched_basis counts subs e fs Hs He Hb) s x l).
Qed.
Print Assumptions C22_enriched_element.
(** P2 enriched with one interior function on a triangle *)
Example C22_case : exists e : element nat,
  let subs := [ciarlet_element 0 2 1 None P2_entities (Ok [10;11;12;13;14;15]); ciarlet_element 0 2 1 None [(2,0)] (Ok [20])] in
  Forall (wf_element tri_counts) subs /\ enriched_element subs = Ok e /\ el_entity_dofs e 2 0 = [6]
  /\ el_basis e = Ok [10;11;12;13;14;15;20].
Proof.
  eexists. split; [|split; [reflexivity|split; reflexivity]].
  constructor; [apply ciarlet_wf; [exact P2_on_triangle|intros fs E; injection E as <-; reflexivity]|].
  constructor; [|constructor]. apply ciarlet_wf; [|intros fs E; injection E as <-; reflexivity].
  intros de [<-|[]]. exists 1. simpl. auto.
Qed.

(** * C23.  [v p b c]: component c of basis function b at point p. *)
Section C23.
Context {A : Type} (np nb rd : nat) (v : nat -> nat -> nat -> A).
(** the tuples of values at the points, for functions with several components *)
Definition tabbed_of : list (list (value A)) :=
  map (fun p => map (fun b => Entries (map (v p b) (range rd))) (range nb)) (range np).

Lemma nth_map_range {B} (f : nat -> B) n i : i < n -> nth_error (map f (range n)) i = Some (f i).
Proof.
  intros H. rewrite nth_error_map. unfold range.
  assert (E : nth_error (seq 0 n) i = Some i).
  { rewrite (nth_error_nth' _ 0) by (rewrite seq_length; exact H). rewrite seq_nth by exact H. reflexivity. }
  rewrite E. reflexivity.
Qed.
Definition rows_of p := map (fun b => map (v p b) (range rd)) (range nb).
Lemma rows_of_len p : Forall (fun r => length r = rd) (rows_of p) /\ length (rows_of p) = nb.
Proof.
  unfold rows_of. split; [apply Forall_map, Forall_forall; intros; rewrite map_length; apply length_range
    |rewrite map_length; apply length_range].
Qed.
Lemma rows_nth p b c : b < nb -> c < rd ->
  match nth_error (rows_of p) b with Some r => nth_error r c | None => None end = Some (v p b c).
Proof. intros Hb Hc. unfold rows_of. rewrite nth_map_range by exact Hb. apply nth_map_range. exact Hc. Qed.
Lemma tab_rows {C} (f : list (list A) -> C) :
  map_res (fun row => rmap f (all_entries row)) tabbed_of = Ok (map (fun p => f (rows_of p)) (range np)).
Proof.
  unfold tabbed_of. rewrite (map_res_ok _ (fun row => match all_entries row with Ok r => f r | Err _ => f [] end)).
  - rewrite map_map. f_equal. apply map_ext. intros p.
    replace (map (fun b => Entries (map (v p b) (range rd))) (range nb)) with (map Entries (rows_of p))
      by (unfold rows_of; rewrite map_map; reflexivity).
    rewrite all_entries_ok. reflexivity.
  - intros row Hr. apply in_map_iff in Hr. destruct Hr as (p & <- & _).
    replace (map (fun b => Entries (map (v p b) (range rd))) (range nb)) with (map Entries (rows_of p))
      by (unfold rows_of; rewrite map_map; reflexivity).
    rewrite all_entries_ok. reflexivity.
Qed.
End C23.

Theorem C23_tabulate_orders_partial : forall (A : Type) (np nb rd : nat) (v : nat -> nat -> nat -> A),
  1 <= nb -> 2 <= rd ->
  let t := tabbed_of np nb rd v in
  tabulate_basis rd t "xyz,xyz" = Ok (Values t) /\
  (exists out, tabulate_basis rd t "xyzxyz" = Ok (Flat out) /\ length out = np /\
     forall p, p < np -> exists row, nth_error out p = Some row /\ length row = nb * rd /\
       forall b c, b < nb -> c < rd -> nth_error row (b * rd + c) = Some (v p b c)) /\
  (exists out, tabulate_basis rd t "xxyyzz" = Ok (Flat out) /\ length out = np /\
     forall p, p < np -> exists row, nth_error out p = Some row /\ length row = rd * nb /\
       forall b c, b < nb -> c < rd -> nth_error row (c * nb + b) = Some (v p b c)) /\
  (exists out, tabulate_basis rd t "xx,yy,zz" = Ok (Nested out) /\ length out = np /\
     forall p, p < np -> exists cols, nth_error out p = Some cols /\ length cols = rd /\
       forall c, c < rd -> exists col, nth_error cols c = Some col /\ length col = nb /\
         forall b, b < nb -> nth_error col b = Some (v p b c)) /\
  (forall o, ~ In o ["xyz,xyz"; "xyzxyz"; "xxyyzz"; "xx,yy,zz"]%string -> tabulate_basis rd t o = Err ValueError).
Proof.
  intros A np nb rd v Hnb Hrd t.
  assert (Hne : (rd =? 1) = false) by (apply Nat.eqb_neq; lia).
  assert (Z : forall p, length (zip_star (rows_of nb rd v p)) = rd /\
     forall c, c < rd -> exists col, nth_error (zip_star (rows_of nb rd v p)) c = Some col /\ length col = nb /\
       forall b, b < nb -> nth_error col b = Some (v p b c)).
  { intros p. destruct (rows_of_len nb rd v p) as [L1 L2].
    destruct (zip_star_spec (rows_of nb rd v p) rd) as [Z1 Z2]; [intros E; rewrite E in L2; simpl in L2; lia|exact L1|].
    split; [exact Z1|]. intros c Hc. destruct (Z2 c Hc) as (col & E1 & E2 & E3). exists col. split; [exact E1|].
    split; [congruence|]. intros b Hb. rewrite E3. apply rows_nth; assumption. }
  unfold tabulate_basis. rewrite Hne. split; [reflexivity|]. split; [|split; [|split]].
  - cbn [String.eqb Ascii.eqb Bool.eqb]. unfold t. rewrite tab_rows. eexists. split; [reflexivity|].
    split; [rewrite map_length; apply length_range|]. intros p Hp. rewrite nth_map_range by exact Hp.
    eexists. split; [reflexivity|]. destruct (rows_of_len nb rd v p) as [L1 L2].
    destruct (nth_error_concat (rows_of nb rd v p) rd L1) as [C1 C2]. split; [congruence|].
    intros b c Hb Hc. rewrite C2 by exact Hc. apply rows_nth; assumption.
  - cbn [String.eqb Ascii.eqb Bool.eqb]. unfold t. rewrite tab_rows. eexists. split; [reflexivity|].
    split; [rewrite map_length; apply length_range|]. intros p Hp. rewrite nth_map_range by exact Hp.
    eexists. split; [reflexivity|]. destruct (Z p) as [Z1 Z2].
    assert (L1 : Forall (fun l => length l = nb) (zip_star (rows_of nb rd v p))).
    { apply Forall_forall. intros l Hl. apply In_nth_error in Hl. destruct Hl as [c Hc].
      assert (c < rd) by (rewrite <- Z1; apply nth_error_Some; congruence).
      destruct (Z2 c H) as (col & E1 & E2 & _). congruence. }
    destruct (nth_error_concat _ nb L1) as [C1 C2]. split; [congruence|].
    intros b c Hb Hc. rewrite C2 by exact Hb. destruct (Z2 c Hc) as (col & -> & _ & E). apply E. exact Hb.
  - cbn [String.eqb Ascii.eqb Bool.eqb]. unfold t. rewrite tab_rows. eexists. split; [reflexivity|].
    split; [rewrite map_length; apply length_range|]. intros p Hp. rewrite nth_map_range by exact Hp.
    eexists. split; [reflexivity|]. apply Z.
  - intros o Ho. simpl in Ho.
    destruct (String.eqb_spec o "xyz,xyz"); [subst; tauto|]. destruct (String.eqb_spec o "xxyyzz"); [subst; tauto|].
    destruct (String.eqb_spec o "xx,yy,zz"); [subst; tauto|]. destruct (String.eqb_spec o "xyzxyz"); [subst; tauto|]. reflexivity.
Qed.
Print Assumptions C23_tabulate_orders_partial.
(** 2 points, 3 functions with 2 components; entry 100 p + 10 b + c *)
Example C23_case : let t := tabbed_of 2 3 2 (fun p b c => 100 * p + 10 * b + c) in
  tabulate_basis 2 t "xxyyzz" = Ok (Flat [[0;10;20;1;11;21];[100;110;120;101;111;121]]) /\
  tabulate_basis 2 t "xyzxyz" = Ok (Flat [[0;1;10;11;20;21];[100;101;110;111;120;121]]) /\
  tabulate_basis 2 t "xyz" = Err ValueError.
Proof. repeat split. Qed.
(** What is missing: for scalar elements any order name, also a misspelt one, is accepted. *)
Theorem C23_unknown_order_refuted : exists (t : list (list (value nat))) o,
  ~ In o ["xyz,xyz"; "xyzxyz"; "xxyyzz"; "xx,yy,zz"]%string /\ tabulate_basis 1 t o = Ok (Values t).
Proof.
  exists [[Num 1; Num 0]; [Num 0; Num 1]], "xxyy"%string. split; [|reflexivity]. simpl. intros H.
  repeat (destruct H as [H|H]; [discriminate|]). exact H.
Qed.
Print Assumptions C23_unknown_order_refuted.

(** * C62.  [by_matrix]/[by_tensor]: outcome of the computation without/with tensor factorisation. *)
(** If both computations give the same functions then every call returns what a fresh element would return. *)
Theorem C62_history_independent_partial : forall (A : Type) (by_matrix by_tensor : res (list A)) flags,
  by_matrix = by_tensor ->
  snd (ciarlet_calls by_matrix by_tensor None flags) =
  map (fun t : bool => if t then by_tensor else by_matrix) flags.
Proof.
  intros A m t flags ->.
  assert (G : forall memo, (memo = None \/ exists fs, memo = Some fs /\ t = Ok fs) ->
    snd (ciarlet_calls t t memo flags) = map (fun b : bool => if b then t else t) flags).
  { induction flags as [|b flags IH]; intros memo Hm; [reflexivity|]. simpl.
    destruct Hm as [->|(fs & -> & E)]; simpl.
    - destruct b; destruct t as [fs|e] eqn:Et.
      all: match goal with |- context [ciarlet_calls ?x ?y ?m ?f] => specialize (IH m); destruct (ciarlet_calls x y m f) as [m' rs] end.
      all: simpl in *; f_equal; apply IH; eauto.
    - specialize (IH (Some fs)). destruct (ciarlet_calls t t (Some fs) flags) as [m' rs]. simpl in *. rewrite E.
      rewrite <- E. f_equal; [destruct b; congruence|]. apply IH. eauto. }
  apply G. left; reflexivity.
Qed.
Print Assumptions C62_history_independent_partial.
Example C62_case : snd (ciarlet_calls (Ok [1;2]) (Ok [1;2]) None [true; false; true]) = [Ok [1;2]; Ok [1;2]; Ok [1;2]].
Proof. reflexivity. Qed.
(** In general false: the flag is ignored once there is a memo, so when one computation raises (the
    element has no tensor factorisation) or gives other functions, the answer depends on earlier calls. *)
Theorem C62_history_independent_refuted : exists (by_matrix by_tensor : res (list nat)) flag,
  snd (ciarlet_calls by_matrix by_tensor None [flag]) <>
  tl (snd (ciarlet_calls by_matrix by_tensor None [false; flag])).
Proof. exists (Ok [1;2]), (Err NotImplementedError), true. discriminate. Qed.
Print Assumptions C62_history_independent_refuted.
(** Enriched elements: when a sub-element raises, the next call returns a truncated list instead of raising. *)
Theorem C62_enriched_refuted : exists (subs : list (res (list nat))) e fs m1 m2,
  enriched_call subs None = (m1, Err e) /\ enriched_call subs m1 = (m2, Ok fs).
Proof.
  exists [Ok [1;2]; Err NotImplementedError], NotImplementedError, [1;2], (Some [1;2]), (Some [1;2]). split; reflexivity.
Qed.
Print Assumptions C62_enriched_refuted.

(** * C65: map_to_cell maps function number d by the mapping of dof number d, whatever the grouping. *)
Theorem C65_map_to_cell : forall (Fn : Type) (zero_fn : Fn) (perform : key -> res (Fn -> Fn)) counts dofs basis,
  length basis = length dofs ->
  (forall di, In di dofs -> is_entity counts (di_entity di)) ->
  (forall di, In di dofs -> exists f, perform (dof_key di) = Ok f) ->
  exists out, map_to_cell zero_fn perform counts dofs basis = Ok out /\ length out = length basis /\
    forall d di b f, nth_error dofs d = Some di -> nth_error basis d = Some b -> perform (dof_key di) = Ok f ->
      nth_error out d = Some (f b).
Proof.
  intros Fn z perform counts dofs basis Hl He Hp. exact (map_to_cell_ok z perform dofs basis Hl Hp counts He).
Qed.
Print Assumptions C65_map_to_cell.
(** dofs of two types interleaved on one entity *)
Example C65_case : map_to_cell 0 (fun k => match snd k with Some m => Ok (fun b => b + 100 * m) | None => Err AssertionError end)
  tri_counts [{| di_entity := (2,0); di_type := 0; di_mapping := Some 1 |}; {| di_entity := (1,2); di_type := 0; di_mapping := Some 2 |};
              {| di_entity := (2,0); di_type := 1; di_mapping := Some 3 |}; {| di_entity := (2,0); di_type := 0; di_mapping := Some 1 |}]
  [1; 2; 3; 4] = Ok [101; 202; 303; 104].
Proof. reflexivity. Qed.
