(** Python-side vocabulary shared by the model files. *)
From Coq Require Import Arith ZArith Lia List.
Import ListNotations.

(** Exceptions raised by the modelled code, as values. *)
Inductive exn :=
| ValueError | AssertionError | NotImplementedError | KeyError | TypeError
| IndexError | ZeroDivisionError | SympifyError | RuntimeError.

Inductive res (A : Type) :=
| Ok (a : A)
| Err (e : exn).
Arguments Ok {A} a.
Arguments Err {A} e.

Definition rmap {A B} (f : A -> B) (r : res A) : res B :=
  match r with Ok a => Ok (f a) | Err e => Err e end.
Definition rbind {A B} (r : res A) (f : A -> res B) : res B :=
  match r with Ok a => f a | Err e => Err e end.

(** python range(n) and range(a, b). *)
Definition range (n : nat) : list nat := seq 0 n.
Definition range2 (a b : nat) : list nat := seq a (b - a).

(** itertools.product( *ls): the last factor varies fastest. *)
Fixpoint product {A} (ls : list (list A)) : list (list A) :=
  match ls with
  | [] => [[]]
  | l :: ls' => flat_map (fun a => map (cons a) (product ls')) l
  end.

Lemma in_range n i : In i (range n) <-> i < n.
Proof. unfold range. rewrite in_seq. lia. Qed.

Lemma in_range2 a b i : In i (range2 a b) <-> a <= i < b.
Proof. unfold range2. rewrite in_seq. lia. Qed.

Lemma NoDup_range n : NoDup (range n).
Proof. apply seq_NoDup. Qed.
Lemma NoDup_range2 a b : NoDup (range2 a b).
Proof. apply seq_NoDup. Qed.
Lemma length_range n : length (range n) = n.
Proof. apply seq_length. Qed.
Lemma length_range2 a b : length (range2 a b) = b - a.
Proof. apply seq_length. Qed.

Lemma NoDup_map_inj {A B} (f : A -> B) l :
  (forall a b, In a l -> In b l -> f a = f b -> a = b) -> NoDup l -> NoDup (map f l).
Proof.
  induction l as [|a l IH]; intros Hinj Hnd; [constructor|]. inversion Hnd; subst. simpl. constructor.
  - intros Hin. apply in_map_iff in Hin. destruct Hin as [b [E Hb]].
    assert (b = a) by (apply Hinj; simpl; auto). subst. contradiction.
  - apply IH; [|assumption]. intros x y Hx Hy. apply Hinj; right; assumption.
Qed.

Lemma NoDup_app_intro {A} (l1 l2 : list A) :
  NoDup l1 -> NoDup l2 -> (forall x, In x l1 -> ~ In x l2) -> NoDup (l1 ++ l2).
Proof.
  induction l1 as [|a l1 IH]; intros H1 H2 Hd; [exact H2|]. inversion H1; subst. simpl. constructor.
  - rewrite in_app_iff. intros [H|H]; [contradiction|]. apply (Hd a); [left; reflexivity|exact H].
  - apply IH; [assumption|assumption|]. intros x Hx. apply Hd. right; exact Hx.
Qed.

Lemma NoDup_flat_map {A B} (f : A -> list B) l :
  NoDup l -> (forall a, In a l -> NoDup (f a)) ->
  (forall a b x, In a l -> In b l -> In x (f a) -> In x (f b) -> a = b) ->
  NoDup (flat_map f l).
Proof.
  induction l as [|a l IH]; intros Hnd Hf Hd; [constructor|]. inversion Hnd; subst. simpl.
  apply NoDup_app_intro.
  - apply Hf. left; reflexivity.
  - apply IH; [assumption| |].
    + intros b Hb. apply Hf. right; exact Hb.
    + intros b c x Hb Hc. apply Hd; right; assumption.
  - intros x Hx Hx'. apply in_flat_map in Hx'. destruct Hx' as [b [Hb Hxb]].
    assert (a = b) by (apply (Hd a b x); simpl; auto). subst. contradiction.
Qed.

Lemma in_product {A} (ls : list (list A)) : forall j,
  In j (product ls) <-> length j = length ls /\ forall i d, i < length ls -> In (nth i j d) (nth i ls []).
Proof.
  induction ls as [|l ls IH]; intros j; simpl.
  - split.
    + intros [<-|[]]. split; [reflexivity|]. intros i d Hi. lia.
    + intros [Hl _]. destruct j; [left; reflexivity|discriminate].
  - rewrite in_flat_map. split.
    + intros [a [Ha Hj]]. apply in_map_iff in Hj. destruct Hj as [j' [<- Hj']].
      apply IH in Hj'. destruct Hj' as [Hl Hi]. split; [simpl; lia|].
      intros [|i] d Hlt; simpl; [exact Ha|]. apply Hi. lia.
    + intros [Hl Hi]. destruct j as [|a j]; [discriminate|]. exists a. split.
      * apply (Hi 0 a). lia.
      * apply in_map. apply IH. split; [simpl in Hl; lia|]. intros i d Hlt. apply (Hi (S i) d). lia.
Qed.

Lemma NoDup_product {A} (ls : list (list A)) : Forall (@NoDup A) ls -> NoDup (product ls).
Proof.
  induction ls as [|l ls IH]; intros H; simpl; [constructor; [simpl; tauto|constructor]|].
  inversion H; subst. apply NoDup_flat_map; [assumption| |].
  - intros a _. apply NoDup_map_inj; [|apply IH; assumption]. intros x y _ _ E. injection E; auto.
  - intros a b x _ _ Ha Hb. apply in_map_iff in Ha, Hb.
    destruct Ha as [y [<- _]], Hb as [z [E _]]. injection E; auto.
Qed.

Lemma length_flat_map_const {A B} (f : A -> list B) l n :
  (forall a, In a l -> length (f a) = n) -> length (flat_map f l) = (length l * n)%nat.
Proof.
  induction l as [|a l IH]; intros H; simpl; [reflexivity|].
  rewrite app_length, IH by (intros; apply H; right; assumption).
  rewrite (H a) by (left; reflexivity). reflexivity.
Qed.

Lemma length_flat_map_sum {A B} (f : A -> list B) l :
  length (flat_map f l) = list_sum (map (fun a => length (f a)) l).
Proof. induction l as [|a l IH]; simpl; [reflexivity|]. rewrite app_length, IH. reflexivity. Qed.
