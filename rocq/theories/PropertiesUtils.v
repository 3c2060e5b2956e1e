(** Properties C47 (allequal) and C49 (ordinals). *)
From Coq Require Import String ZArith Arith Bool Lia List.
From Verif Require Import Base UtilsModel.
Import ListNotations.

(** * C47 *)

Section Spec.
Variable E : Type.
Variable of_int : Z -> E.

(** The number a value stands for. *)
Definition number (v : value E) (e : E) : Prop :=
  match v with NInt z => e = of_int z | NExpr e' | NScal e' => e = e' | _ => False end.

(** The same nested structure with equal entries; a VectorFunction counts as the list of its components. *)
Inductive same : value E -> value E -> Prop :=
| same_number a b e : number a e -> number b e -> same a b
| same_seq la lb : Forall2 same la lb -> same (NSeq la) (NSeq lb)
| same_vec v : same (NVec v) (NVec v)
| same_vec_seq v l : Forall2 number l v -> same (NVec v) (NSeq l)
| same_seq_vec v l : Forall2 number l v -> same (NSeq l) (NVec v).

(** No item of the nested structure is a bare sympy expression. *)
Fixpoint no_bare_expr (v : value E) : Prop :=
  match v with
  | NSeq l => (fix all l := match l with [] => True | i :: l' => no_bare_expr i /\ all l' end) l
  | NExpr _ => False
  | _ => True
  end.

(** Lists that are compared with lists have the same length. *)
Fixpoint same_lengths (a b : value E) : Prop :=
  match a, b with
  | NSeq la, NSeq lb =>
      (fix all la lb := match la, lb with
                        | [], [] => True
                        | i :: la', j :: lb' => same_lengths i j /\ all la' lb'
                        | _, _ => False
                        end) la lb
  | _, _ => True
  end.

(** Lists that are compared with a function hold numbers (otherwise functions.py raises). *)
Fixpoint comparable (a b : value E) : Prop :=
  match a, b with
  | NSeq la, NSeq lb =>
      (fix all la lb := match la, lb with i :: la', j :: lb' => comparable i j /\ all la' lb' | _, _ => True end) la lb
  | NSeq l, (NScal _ | NVec _) | (NScal _ | NExpr _ | NVec _), NSeq l =>
      l <> [] /\ Forall (fun i => exists e, number i e) l
  | _, _ => True
  end.
End Spec.

Section Proofs.
Variable E : Type.
Variable of_int : Z -> E.
Variable eqE : E -> E -> bool.
(** sympy decides equality of expressions, and different integers are different expressions. *)
Hypothesis eqE_spec : forall a b, eqE a b = true <-> a = b.
Hypothesis of_int_inj : forall x y, of_int x = of_int y -> x = y.

Lemma eqE_refl a : eqE a a = true.
Proof. apply eqE_spec. reflexivity. Qed.

Lemma check_tuples_spec v w : check_tuples E eqE v w = true <-> v = w.
Proof.
  revert w. induction v as [|a v IH]; intros [|b w]; simpl; split; try discriminate; try reflexivity.
  - intros H. apply andb_prop in H. destruct H as [H1 H2]. apply eqE_spec in H1. apply IH in H2. congruence.
  - intros H. injection H as <- <-. rewrite eqE_refl. apply IH. reflexivity.
Qed.

Lemma items_format_spec l : Forall (fun i => exists e, number E of_int i e) l ->
  exists t, items_format E of_int l = Ok t /\ Forall2 (number E of_int) l t.
Proof.
  induction l as [|i l IH]; intros H; [exists []; split; [reflexivity|constructor]|].
  inversion_clear H. destruct H0 as [e He]. destruct (IH H1) as [t [Ht Hf]]. exists (e :: t). simpl.
  assert (item_format E of_int i = Ok e) by (destruct i; simpl in *; try contradiction; congruence).
  rewrite H, Ht. split; [reflexivity|]. constructor; assumption.
Qed.

Lemma number_unique i e e' : number E of_int i e -> number E of_int i e' -> e = e'.
Proof. destruct i; simpl; try contradiction; congruence. Qed.
Lemma numbers_unique l v w : Forall2 (number E of_int) l v -> Forall2 (number E of_int) l w -> v = w.
Proof.
  intros H. revert w. induction H as [|i e l v Hi _ IH]; intros w Hw; inversion_clear Hw; [reflexivity|].
  f_equal; [exact (number_unique i _ _ Hi H)|auto].
Qed.

Lemma eq_seq_spec f l : l <> [] -> Forall (fun i => exists e, number E of_int i e) l ->
  exists t, eq_seq E of_int eqE f l = Ok (match f with inl _ => false | inr v => check_tuples E eqE v t end) /\
    Forall2 (number E of_int) l t.
Proof.
  intros Hl Hn. destruct (items_format_spec l Hn) as [t [Ht Hf]]. exists t. split; [|exact Hf].
  destruct l as [|i l]; [congruence|]. inversion_clear Hn. destruct H as [e He].
  destruct i; simpl in He; try contradiction; unfold eq_seq; rewrite Ht; reflexivity.
Qed.

Fixpoint value_ind' (P : value E -> Prop) (Hseq : forall l, Forall P l -> P (NSeq l)) (Hint : forall z, P (NInt z))
    (Hexpr : forall e, P (NExpr e)) (Hscal : forall e, P (NScal e)) (Hvec : forall v, P (NVec v)) (v : value E) : P v :=
  match v with
  | NSeq l => Hseq l ((fix all l : Forall P l :=
      match l with [] => Forall_nil P | i :: l' => Forall_cons i (value_ind' P Hseq Hint Hexpr Hscal Hvec i) (all l') end) l)
  | NInt z => Hint z | NExpr e => Hexpr e | NScal e => Hscal e | NVec v => Hvec v
  end.

Lemma allequal_seq_cons i la j lb :
  allequal E of_int eqE (NSeq (i :: la)) (NSeq (j :: lb))
  = rbind (allequal E of_int eqE i j) (fun c => if c then allequal E of_int eqE (NSeq la) (NSeq lb) else Ok false).
Proof. reflexivity. Qed.

Lemma same_num_inv a b e e' : number E of_int a e -> number E of_int b e' -> (same E of_int a b <-> e = e').
Proof.
  intros Ha Hb. split.
  - intros H. destruct H as [a b e0 H1 H2| | | |]; simpl in *; try contradiction.
    rewrite (number_unique a e e0 Ha H1), (number_unique b e' e0 Hb H2). reflexivity.
  - intros <-. exact (same_number E of_int a b e Ha Hb).
Qed.

Lemma allequal_decides a : forall b, no_bare_expr E b -> same_lengths E a b -> comparable E of_int a b ->
  exists c, allequal E of_int eqE a b = Ok c /\ (c = true <-> same E of_int a b).
Proof.
  induction a as [la IH|z|e|e|v] using value_ind'; intros b Hb Hl Hc.
  - destruct b as [lb|z|e|e|w].
    + revert lb Hb Hl Hc. induction IH as [|i la Hi _ IHl]; intros [|j lb] Hb Hl Hc; simpl in Hl; try contradiction.
      * exists true. split; [reflexivity|]. split; [intros _|reflexivity]. apply same_seq. constructor.
      * destruct Hb as [Hb1 Hb2]. destruct Hl as [Hl1 Hl2]. destruct Hc as [Hc1 Hc2].
        destruct (Hi j Hb1 Hl1 Hc1) as [c [E1 C1]]. rewrite allequal_seq_cons, E1. cbn [rbind].
        destruct (IHl lb Hb2 Hl2 Hc2) as [c' [E2 C2]]. destruct c.
        -- exists c'. split; [exact E2|]. rewrite C2. split; intros H; apply same_seq.
           ++ constructor; [apply C1; reflexivity|]. inversion H; subst; [simpl in *; contradiction|assumption].
           ++ inversion H; subst; [simpl in *; contradiction|]. inversion H2; subst; assumption.
        -- exists false. split; [reflexivity|]. split; [discriminate|]. intros H.
           inversion H; subst; [simpl in *; contradiction|]. inversion H2; subst. apply C1. assumption.
    + exists false. split; [reflexivity|]. split; [discriminate|]. intros H. inversion H; subst. simpl in *. contradiction.
    + contradiction.
    + destruct Hc as [Hne Hn]. destruct (eq_seq_spec (inl e) la Hne Hn) as [t [Et _]]. exists false.
      split; [exact Et|]. split; [discriminate|]. intros H. inversion H; subst. simpl in *. contradiction.
    + destruct Hc as [Hne Hn]. destruct (eq_seq_spec (inr w) la Hne Hn) as [t [Et Ht]].
      exists (check_tuples E eqE w t). split; [exact Et|]. rewrite check_tuples_spec. split.
      * intros <-. apply same_seq_vec. exact Ht.
      * intros H. inversion H; subst; [simpl in *; contradiction|]. apply (numbers_unique la); assumption.
  - destruct b as [lb|z'|e|e|w]; try contradiction.
    + exists false. split; [reflexivity|]. split; [discriminate|]. intros H. inversion H; subst. simpl in *. contradiction.
    + exists (Z.eqb z z'). split; [reflexivity|]. rewrite Z.eqb_eq, (same_num_inv (NInt z) (NInt z') (of_int z) (of_int z')) by reflexivity.
      split; [congruence|apply of_int_inj].
    + exists (eqE e (of_int z)). split; [reflexivity|]. rewrite eqE_spec, (same_num_inv (NInt z) (NScal e) (of_int z) e) by reflexivity.
      split; auto.
    + exists false. split; [reflexivity|]. split; [discriminate|]. intros H. inversion H; subst. simpl in *. contradiction.
  - destruct b as [lb|z'|e'|e'|w]; try contradiction.
    + destruct Hc as [Hne Hn]. destruct (eq_seq_spec (inl e) lb Hne Hn) as [t [Et _]]. exists false.
      split; [exact Et|]. split; [discriminate|]. intros H. inversion H; subst. simpl in *. contradiction.
    + exists (eqE e (of_int z')). split; [reflexivity|]. rewrite eqE_spec, (same_num_inv (NExpr e) (NInt z') e (of_int z')) by reflexivity. tauto.
    + exists (eqE e e'). split; [reflexivity|]. rewrite eqE_spec, (same_num_inv (NExpr e) (NScal e') e e') by reflexivity. tauto.
    + exists false. split; [reflexivity|]. split; [discriminate|]. intros H. inversion H; subst. simpl in *. contradiction.
  - destruct b as [lb|z'|e'|e'|w]; try contradiction.
    + destruct Hc as [Hne Hn]. destruct (eq_seq_spec (inl e) lb Hne Hn) as [t [Et _]]. exists false.
      split; [exact Et|]. split; [discriminate|]. intros H. inversion H; subst. simpl in *. contradiction.
    + exists (eqE e (of_int z')). split; [reflexivity|]. rewrite eqE_spec, (same_num_inv (NScal e) (NInt z') e (of_int z')) by reflexivity. tauto.
    + exists (eqE e e'). split; [reflexivity|]. rewrite eqE_spec, (same_num_inv (NScal e) (NScal e') e e') by reflexivity. tauto.
    + exists false. split; [reflexivity|]. split; [discriminate|]. intros H. inversion H; subst. simpl in *. contradiction.
  - destruct b as [lb|z'|e'|e'|w]; try contradiction.
    + destruct Hc as [Hne Hn]. destruct (eq_seq_spec (inr v) lb Hne Hn) as [t [Et Ht]].
      exists (check_tuples E eqE v t). split; [exact Et|]. rewrite check_tuples_spec. split.
      * intros <-. apply same_vec_seq. exact Ht.
      * intros H. inversion H; subst; [simpl in *; contradiction|]. apply (numbers_unique lb); assumption.
    + exists false. split; [reflexivity|]. split; [discriminate|]. intros H. inversion H; subst. simpl in *. contradiction.
    + exists false. split; [reflexivity|]. split; [discriminate|]. intros H. inversion H; subst. simpl in *. contradiction.
    + exists (check_tuples E eqE v w). split; [reflexivity|]. rewrite check_tuples_spec. split.
      * intros <-. apply same_vec.
      * intros H. inversion H; subst; [simpl in *; contradiction|reflexivity].
Qed.
End Proofs.

(** Full statement: allequal(a, b) is True exactly when a and b are the same nested structure with equal
    entries.  Proved when the lists compared have equal lengths and [b] holds no bare sympy expression (its
    entries are ints and functions); without these two conditions it is false ([C47_expression_refuted],
    [C47_truncation_refuted]). *)
Theorem C47_allequal_partial (E : Type) (of_int : Z -> E) (eqE : E -> E -> bool) :
  (forall a b, eqE a b = true <-> a = b) -> (forall x y, of_int x = of_int y -> x = y) ->
  forall a b, no_bare_expr E b -> same_lengths E a b -> comparable E of_int a b ->
  exists c, allequal E of_int eqE a b = Ok c /\ (c = true <-> same E of_int a b).
Proof. intros H1 H2. exact (allequal_decides E of_int eqE H1 H2). Qed.
Print Assumptions C47_allequal_partial.

(** Integers as expressions. *)
Example C47_example :
  allequal Z (fun z => z) Z.eqb (NSeq [NInt 1; NSeq [NExpr 2; NInt 3]; NVec [4; 5]]%Z)
                                (NSeq [NScal 1; NSeq [NInt 2; NScal 3]; NSeq [NInt 4; NScal 5]]%Z) = Ok true /\
  allequal Z (fun z => z) Z.eqb (NSeq [NInt 1; NSeq [NExpr 2; NInt 3]]%Z)
                                (NSeq [NScal 1; NSeq [NInt 2; NScal 4]]%Z) = Ok false.
Proof. split; reflexivity. Qed.

(** Whatever [a] is, it is "equal" to every sympy expression. *)
Theorem C47_expression_refuted (E : Type) (of_int : Z -> E) (eqE : E -> E -> bool) :
  (forall a b, eqE a b = true <-> a = b) ->
  (forall a e, allequal E of_int eqE a (NExpr e) = Ok true) /\
  (forall e e' : E, e <> e' -> exists a b, allequal E of_int eqE a b = Ok true /\ ~ same E of_int a b).
Proof.
  intros H.
  assert (A : forall a e, allequal E of_int eqE a (NExpr e) = Ok true).
  { intros a e. destruct a; simpl; f_equal; apply H; reflexivity. }
  split; [exact A|]. intros e e' Hn. exists (NExpr e), (NExpr e'). split; [apply A|].
  intros S. inversion S; subst. simpl in *. congruence.
Qed.
Print Assumptions C47_expression_refuted.

(** Lists of different lengths are "equal" if one continues the other. *)
Theorem C47_truncation_refuted (E : Type) (of_int : Z -> E) (eqE : E -> E -> bool) :
  (forall b, allequal E of_int eqE (NSeq []) (NSeq b) = Ok true) /\
  exists a b, allequal E of_int eqE a b = Ok true /\ ~ same E of_int a b.
Proof.
  split; [reflexivity|]. exists (NSeq [NInt 1%Z]), (NSeq [NInt 1%Z; NInt 2%Z]). split; [reflexivity|].
  intros S. inversion S; subst; [simpl in *; contradiction|].
  match goal with H : Forall2 _ _ _ |- _ => inversion H; subst; match goal with H' : Forall2 _ [] (_ :: _) |- _ => inversion H' end end.
Qed.
Print Assumptions C47_truncation_refuted.

(** * C49 *)

(** English: the numbers whose last two digits are 11, 12, 13 take "th"; otherwise the last digit decides. *)
Definition english_suffix (n : nat) : string :=
  if existsb (Nat.eqb (n mod 100)) [11; 12; 13] then "th"
  else if Nat.eqb (n mod 10) 1 then "st"
  else if Nat.eqb (n mod 10) 2 then "nd"
  else if Nat.eqb (n mod 10) 3 then "rd"
  else "th".

Lemma mod100_mod10 n : (n mod 100) mod 10 = n mod 10.
Proof.
  rewrite (Nat.div_mod n 100) at 2 by lia. replace (100 * (n / 100)) with (10 * (n / 100) * 10) by lia.
  rewrite Nat.add_comm, Nat.mod_add by lia. reflexivity.
Qed.

(** Full statement: _nth(n) is n followed by its English suffix.  Proved for every n except 13, 111, 112, 113
    and the other numbers from 100 on that end in 11, 12 or 13, where it is false ([C49_nth_refuted]). *)
Theorem C49_nth_partial n : (existsb (Nat.eqb (n mod 100)) [11; 12; 13] = false \/ n = 11 \/ n = 12) ->
  nth_text n = (decimal n ++ english_suffix n)%string.
Proof.
  intros [H|[->| ->]]; [|reflexivity|reflexivity]. unfold nth_text, english_suffix. rewrite H.
  cbn [existsb] in H. apply orb_false_iff in H. destruct H as [H1 H]. apply orb_false_iff in H. destruct H as [H2 _].
  assert (N1 : Nat.eqb n 11 = false) by (apply Nat.eqb_neq; intros ->; discriminate).
  assert (N2 : Nat.eqb n 12 = false) by (apply Nat.eqb_neq; intros ->; discriminate).
  rewrite N1, N2. cbn [negb]. rewrite !andb_true_r.
  destruct (Nat.eqb (n mod 10) 1); [reflexivity|]. destruct (Nat.eqb (n mod 10) 2); [reflexivity|].
  destruct (Nat.eqb (n mod 10) 3); reflexivity.
Qed.
Print Assumptions C49_nth_partial.

(** All entities of the cells other than dual polygons have numbers up to 12 and are named correctly. *)
Example C49_example : map nth_text [0; 1; 2; 3; 4; 11; 12; 21; 102]
  = ["0th"; "1st"; "2nd"; "3rd"; "4th"; "11th"; "12th"; "21st"; "102nd"]%string.
Proof. reflexivity. Qed.

(** 13 becomes 13rd and, for every k > 0, 100 k + 11, 100 k + 12 and 100 k + 13 become st, nd and rd. *)
Theorem C49_nth_refuted :
  nth_text 13 = "13rd"%string /\
  (forall k, 0 < k ->
     nth_text (100 * k + 11) = (decimal (100 * k + 11) ++ "st")%string /\
     nth_text (100 * k + 12) = (decimal (100 * k + 12) ++ "nd")%string /\
     nth_text (100 * k + 13) = (decimal (100 * k + 13) ++ "rd")%string) /\
  (forall k, english_suffix (100 * k + 11) = "th"%string /\ english_suffix (100 * k + 12) = "th"%string /\
     english_suffix (100 * k + 13) = "th"%string).
Proof.
  split; [reflexivity|]. split.
  - intros k Hk.
    assert (M : forall d, d < 100 -> (100 * k + d) mod 10 = d mod 10).
    { intros d Hd. replace (100 * k + d) with (d + (10 * k) * 10) by lia. apply Nat.mod_add. lia. }
    unfold nth_text. rewrite !M by lia.
    rewrite (proj2 (Nat.eqb_neq (100 * k + 11) 11)), (proj2 (Nat.eqb_neq (100 * k + 12) 12)),
      (proj2 (Nat.eqb_neq (100 * k + 13) 12)) by lia. split; [|split]; reflexivity.
  - intros k.
    assert (M : forall d, d < 100 -> (100 * k + d) mod 100 = d).
    { intros d Hd. replace (100 * k + d) with (d + k * 100) by lia. rewrite Nat.mod_add by lia. apply Nat.mod_small. exact Hd. }
    unfold english_suffix. rewrite !M by lia. split; [|split]; reflexivity.
Qed.
Print Assumptions C49_nth_refuted.
