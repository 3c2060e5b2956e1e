(** C50: integral moment degrees of freedom are numbered slot by slot, entity by entity. *)
From Coq Require Import String ZArith Arith Bool Lia Reals List Sorted.
From Verif Require Import Base ReferencesModel MomentsModel.
Import ListNotations.
Local Open Scope nat_scope.
Local Open Scope string_scope.

Arguments MType {cls kwargs} _. Arguments MInt {cls kwargs} _. Arguments MStr {cls kwargs} _.
Arguments MDict {cls kwargs} _ _. Arguments MTuple {cls kwargs} _. Arguments MOther {cls kwargs}.

(** Lexicographic order on (slot, entity, number). *)
Definition before (a b : nat * nat * nat) : Prop :=
  let '(s, i, n) := a in let '(s', i', n') := b in
  s < s' \/ (s = s' /\ (i < i' \/ (i = i' /\ n < n'))).

Section C50.
Variable cls kwargs : Type.
Variable no_kwargs : kwargs.
Variable min_order : cls -> res Z.
Variable dof_count : cls -> cell_type -> Z -> kwargs -> res nat.

(** [m] is what the specification says for cells called [name]: the tuple itself, or the entry of the
    dictionary; the four forms of a tuple are those of moments.py:13-18. *)
Inductive says : mval cls kwargs -> string -> moment cls kwargs -> Prop :=
| says_entry entries kw v name m :
    (exists before_ after, entries = (before_ ++ (name, v) :: after)%list /\ ~ In name (map fst before_)) ->
    says v name m -> says (MDict entries kw) name m
| says_3 I E o name : says (MTuple [MType I; MType E; MInt o]) name (Build_moment cls kwargs I E o None no_kwargs)
| says_str I E o s name : says (MTuple [MType I; MType E; MInt o; MStr s]) name (Build_moment cls kwargs I E o (Some s) no_kwargs)
| says_kw I E o entries kw name : says (MTuple [MType I; MType E; MInt o; MDict entries kw]) name (Build_moment cls kwargs I E o None kw)
| says_none_kw I E o entries kw name :
    says (MTuple [MType I; MType E; MInt o; MOther; MDict entries kw]) name (Build_moment cls kwargs I E o None kw)
| says_str_kw I E o s entries kw name :
    says (MTuple [MType I; MType E; MInt o; MStr s; MDict entries kw]) name (Build_moment cls kwargs I E o (Some s) kw).

Theorem C50_specification_read md name m : says md name m -> extract_moment_data cls kwargs no_kwargs md name = Ok m.
Proof.
  induction 1 as [entries kw v name m [l [l' [-> N]]] _ IH| | | | |]; try reflexivity.
  cbn [extract_moment_data]. induction l as [|[k w] l IHl]; simpl.
  - rewrite String.eqb_refl. exact IH.
  - simpl in N. destruct (String.eqb_spec k name) as [E|E]; [tauto|]. apply IHl. tauto.
Qed.

(** The n-th degree of freedom of entity i of the slot s of the list of keyword arguments. *)
Definition moment_for (r : reference) (l : list (Z * option (mval cls kwargs))) (s i n : nat) (d : dof cls kwargs) : Prop :=
  exists dim md t entities sub m lowest count,
    nth_error l s = Some (dim, Some md) /\
    sub_entity_types_z (r_type r) dim = Ok t /\ t <> NoType /\ (0 < dim)%Z /\
    sub_entities r (Z.to_nat dim) = Ok entities /\ i < length entities /\
    sub_entity r (Z.to_nat dim) i false = Ok sub /\
    extract_moment_data cls kwargs no_kwargs md (cell_name (r_type sub)) = Ok m /\
    min_order (m_element _ _ m) = Ok lowest /\ (lowest <= m_order _ _ m)%Z /\
    dof_count (m_element _ _ m) (r_type sub) (m_order _ _ m) (m_kwargs _ _ m) = Ok count /\ n < count /\
    d = {| d_class := m_class _ _ m; d_element := m_element _ _ m; d_cell := r_type sub; d_order := m_order _ _ m;
           d_kwargs := m_kwargs _ _ m; d_number := n; d_entity := (dim, i); d_mapping := m_mapping _ _ m |}.

(** The keyword arguments in the order of moments.py:94-104, with the dimension of the entities they are for. *)
Definition keyword_slots (r : reference) (a : moment_args cls kwargs) : list (Z * option (mval cls kwargs)) :=
  [(0, vertices cls kwargs a); (1, edges_ cls kwargs a); (2, faces_ cls kwargs a); (3, volumes_ cls kwargs a);
   (Z.of_nat (tdim (r_type r)) - 3, peaks cls kwargs a); (Z.of_nat (tdim (r_type r)) - 2, ridges cls kwargs a);
   (Z.of_nat (tdim (r_type r)) - 1, facets cls kwargs a); (Z.of_nat (tdim (r_type r)), cells cls kwargs a)]%Z.

Lemma map_r_split {A B} (f : A -> res B) l r : map_r f l = Ok r -> Forall2 (fun a b => f a = Ok b) l r.
Proof.
  revert r. induction l as [|a l IH]; intros r H; simpl in H.
  - injection H as <-. constructor.
  - destruct (f a) as [b|] eqn:E; [|discriminate]. simpl in H. destruct (map_r f l) as [r'|]; [|discriminate].
    simpl in H. injection H as <-. constructor; auto.
Qed.

(** Keys for the blocks of one level: each item b of [blocks] (number j0, j0+1, ...) has keys. *)
Definition sorted3 := StronglySorted before.

Lemma sorted_app l l' : sorted3 l -> sorted3 l' -> (forall a b, In a l -> In b l' -> before a b) -> sorted3 (l ++ l')%list.
Proof.
  induction 1 as [|a l Hl IH Ha]; intros H' Hb; simpl; [exact H'|]. constructor.
  - apply IH; [exact H'|]. intros x y Hx. apply Hb. right. exact Hx.
  - apply Forall_app. split; [exact Ha|]. apply Forall_forall. intros y Hy. apply Hb; [left; reflexivity|exact Hy].
Qed.

Lemma sorted_numbers s i count : sorted3 (map (fun n => (s, i, n)) (range count)).
Proof.
  unfold range. generalize 0. induction count as [|c IH]; intros k; simpl; [constructor|]. constructor; [apply IH|].
  apply Forall_forall. intros x Hx. apply in_map_iff in Hx. destruct Hx as [n [<- Hn]]. apply in_seq in Hn. simpl. lia.
Qed.

Lemma combine_app {A B} (l l' : list A) (m m' : list B) : length l = length m -> combine (l ++ l') (m ++ m') = (combine l m ++ combine l' m')%list.
Proof. revert m. induction l as [|a l IH]; intros [|b m] H; try discriminate; [reflexivity|]. simpl. f_equal. apply IH. simpl in H. congruence. Qed.

(** Blocks one after the other. *)
Lemma concat_keys (level : nat * nat * nat -> nat) (Q : nat * nat * nat -> Prop) (P : nat -> nat * nat * nat -> dof cls kwargs -> Prop) js blocks :
  (forall a b, Q a -> Q b -> level a < level b -> before a b) ->
  StronglySorted lt js ->
  Forall2 (fun j b => exists keys, length keys = length b /\ sorted3 keys /\ (forall k, In k keys -> level k = j /\ Q k) /\
             forall k d, In (k, d) (combine keys b) <-> P j k d) js blocks ->
  exists keys, length keys = length (concat blocks) /\ sorted3 keys /\ (forall k, In k keys -> In (level k) js /\ Q k) /\
    forall k d, In (k, d) (combine keys (concat blocks)) <-> exists j, In j js /\ P j k d.
Proof.
  intros HQ Hs H. induction H as [|j b js blocks [keys [L1 [S1 [K1 C1]]]] _ IH].
  - exists []. split; [reflexivity|]. split; [constructor|]. split; [intros k []|]. intros k d. split; [intros []|]. intros [j [[] _]].
  - inversion Hs as [|? ? Hs' Hj]; subst. destruct (IH Hs') as [keys' [L2 [S2 [K2 C2]]]]. exists (keys ++ keys')%list.
    split; [simpl; rewrite !app_length; congruence|]. split; [|split].
    + apply sorted_app; [exact S1|exact S2|]. intros a c Ha Hc. destruct (K1 a Ha) as [E1 Q1]. destruct (K2 c Hc) as [E2 Q2].
      apply HQ; [exact Q1|exact Q2|]. rewrite E1. rewrite Forall_forall in Hj. apply Hj. exact E2.
    + intros k Hk. apply in_app_or in Hk. destruct Hk as [Hk|Hk].
      * destruct (K1 k Hk) as [E1 Q1]. split; [left; symmetry; exact E1|exact Q1].
      * destruct (K2 k Hk) as [E2 Q2]. split; [right; exact E2|exact Q2].
    + intros k d. simpl concat. rewrite combine_app by exact L1. rewrite in_app_iff, C1, C2. split.
      * intros [H|[j' [H1 H2]]]; [exists j; simpl; auto|exists j'; simpl; auto].
      * intros [j' [[<-|H1] H2]]; [left; exact H2|right; eauto].
Qed.

Lemma range_sorted n : StronglySorted lt (range n).
Proof.
  unfold range. generalize 0. induction n as [|n IH]; intros k; simpl; [constructor|]. constructor; [apply IH|].
  apply Forall_forall. intros x Hx. apply in_seq in Hx. lia.
Qed.

Lemma Forall2_impl_in {A B} (P Q : A -> B -> Prop) l m : (forall a b, In a l -> P a b -> Q a b) -> Forall2 P l m -> Forall2 Q l m.
Proof.
  intros H F. induction F as [|a b l m Hab _ IH]; constructor; [apply H; [left; reflexivity|exact Hab]|].
  apply IH. intros a' b' Hin. apply H. right. exact Hin.
Qed.

(** One entity. *)
Lemma entity_keys r dim md t entities i s l ds : nth_error l s = Some (dim, Some md) ->
  sub_entity_types_z (r_type r) dim = Ok t -> t <> NoType -> (0 < dim)%Z ->
  sub_entities r (Z.to_nat dim) = Ok entities -> i < length entities ->
  entity_dofs cls kwargs no_kwargs min_order dof_count r dim md i = Ok ds ->
  exists keys, length keys = length ds /\ sorted3 keys /\ (forall k, In k keys -> fst k = (s, i)) /\
    (forall k d, In (k, d) (combine keys ds) <-> fst k = (s, i) /\ moment_for r l s i (snd k) d).
Proof.
  intros Hs Ht Nt Hd He Hi H. unfold entity_dofs in H.
  destruct (sub_entity r (Z.to_nat dim) i false) as [sub|] eqn:Esub; [|discriminate]. cbn [rbind] in H.
  destruct (extract_moment_data cls kwargs no_kwargs md (cell_name (r_type sub))) as [m|] eqn:Em; [|discriminate]. cbn [rbind] in H.
  destruct (min_order (m_element _ _ m)) as [lowest|] eqn:Ew; [|discriminate]. cbn [rbind] in H.
  destruct (Z.ltb_spec (m_order _ _ m) lowest) as [Hlt|Hle].
  - injection H as <-. exists []. split; [reflexivity|]. split; [constructor|]. split; [intros k []|].
    intros k d. split; [intros []|]. intros (_ & dim' & md' & t' & en' & sub' & m' & lo' & c' & H1 & H2 & H3 & H4 & H5 & H6 & H7 & H8 & H9 & H10 & _).
    rewrite Hs in H1. injection H1 as <- <-. rewrite Esub in H7. injection H7 as <-. rewrite Em in H8. injection H8 as <-.
    rewrite Ew in H9. injection H9 as <-. lia.
  - destruct (dof_count (m_element _ _ m) (r_type sub) (m_order _ _ m) (m_kwargs _ _ m)) as [count|] eqn:Ec; [|discriminate].
    cbn [rbind] in H. set (mk := fun dn => Build_dof cls kwargs (m_class _ _ m) (m_element _ _ m) (r_type sub) (m_order _ _ m) (m_kwargs _ _ m) dn (dim, i) (m_mapping _ _ m)) in H.
    injection H as <-. exists (map (fun n => (s, i, n)) (range count)). split; [rewrite !map_length; reflexivity|]. split; [|split].
    + apply sorted_numbers.
    + intros k Hk. apply in_map_iff in Hk. destruct Hk as [n [<- _]]. reflexivity.
    + intros k d. assert (E : combine (map (fun n => (s, i, n)) (range count)) (map mk (range count)) = map (fun n => ((s, i, n), mk n)) (range count)).
      { generalize (range count). induction l0 as [|n l0 IH]; simpl; [reflexivity|]. f_equal. exact IH. }
      rewrite E, in_map_iff. split.
      * intros [n [E' Hn]]. injection E' as <- <-. apply in_range in Hn. split; [reflexivity|].
        exists dim, md, t, entities, sub, m, lowest, count. repeat (split; [assumption|]). reflexivity.
      * destruct k as [[s0 i0] n]. cbn [fst snd].
        intros (E' & dim' & md' & t' & en' & sub' & m' & lo' & c' & H1 & H2 & H3 & H4 & H5 & H6 & H7 & H8 & H9 & H10 & H11 & H12 & ->).
        injection E' as -> ->.
        rewrite Hs in H1. injection H1 as <- <-. rewrite Esub in H7. injection H7 as <-. rewrite Em in H8. injection H8 as <-.
        rewrite Ec in H11. injection H11 as <-. exists n. split; [reflexivity|]. apply in_range. exact H12.
Qed.

Lemma slot_keys r l s dim md ds : nth_error l s = Some (dim, md) ->
  slot_dofs cls kwargs no_kwargs min_order dof_count r dim md = Ok ds ->
  exists keys, length keys = length ds /\ sorted3 keys /\ (forall k, In k keys -> fst (fst k) = s) /\
    (forall k d, In (k, d) (combine keys ds) <-> fst (fst k) = s /\ moment_for r l s (snd (fst k)) (snd k) d).
Proof.
  intros Hs H.
  assert (Empty : ds = [] -> (forall i n d, ~ moment_for r l s i n d) ->
    exists keys, length keys = length ds /\ sorted3 keys /\ (forall k, In k keys -> fst (fst k) = s) /\
      (forall k d, In (k, d) (combine keys ds) <-> fst (fst k) = s /\ moment_for r l s (snd (fst k)) (snd k) d)).
  { intros -> Hn. exists []. split; [reflexivity|]. split; [constructor|]. split; [intros k []|]. intros k d. split; [intros []|]. intros [_ Hm]. destruct (Hn _ _ _ Hm). }
  unfold slot_dofs in H. destruct md as [md|].
  2:{ injection H as <-. apply Empty; [reflexivity|]. intros i n d (dim' & md' & t' & en' & sub' & m' & lo' & c' & H1 & _). rewrite Hs in H1. discriminate. }
  destruct (sub_entity_types_z (r_type r) dim) as [t|] eqn:Et; [|discriminate]. cbn [rbind] in H.
  destruct (match t with NoType => true | _ => false end) eqn:Nt.
  { destruct t; try discriminate. injection H as <-. apply Empty; [reflexivity|].
    intros i n d (dim' & md' & t' & en' & sub' & m' & lo' & c' & H1 & H2 & H3 & _). rewrite Hs in H1. injection H1 as <- <-.
    rewrite Et in H2. injection H2 as <-. apply H3. reflexivity. }
  assert (Nt' : t <> NoType) by (intros ->; discriminate).
  assert (H' : (if (0 <? dim)%Z then rbind (sub_entities r (Z.to_nat dim)) (fun vs => rmap (@concat _) (map_r (entity_dofs cls kwargs no_kwargs min_order dof_count r dim md) (range (length vs)))) else Err AssertionError) = Ok ds) by (destruct t; [exact H|exact H|discriminate]).
  clear H. destruct (Z.ltb_spec 0 dim) as [Hd|Hd]; [|discriminate].
  destruct (sub_entities r (Z.to_nat dim)) as [en|] eqn:Een; [|discriminate]. cbn [rbind] in H'.
  destruct (map_r _ (range (length en))) as [blocks|] eqn:Eb in H'; [|discriminate]. injection H' as <-.
  apply map_r_split in Eb.
  destruct (concat_keys (fun k => snd (fst k)) (fun k => fst (fst k) = s) (fun i k d => fst k = (s, i) /\ moment_for r l s i (snd k) d) (range (length en)) blocks) as [keys [K1 [K2 [K3 K4]]]].
  - intros [[s1 i1] n1] [[s2 i2] n2]. simpl. intros -> -> Hlt. right. auto.
  - apply range_sorted.
  - apply Forall2_impl_in with (2 := Eb). intros i b Hi Hb. apply in_range in Hi.
    destruct (entity_keys r dim md t en i s l b Hs Et Nt' Hd Een Hi Hb) as [keys [A1 [A2 [A3 A4]]]]. exists keys.
    split; [exact A1|]. split; [exact A2|]. split; [|exact A4]. intros k Hk. specialize (A3 k Hk). rewrite A3. simpl. auto.
  - exists keys. split; [exact K1|]. split; [exact K2|]. split; [intros k Hk; apply (K3 k Hk)|].
    intros k d. rewrite K4. split.
    + intros [i [Hi [E1 E2]]]. rewrite E1. simpl. auto.
    + intros [E1 E2]. exists (snd (fst k)). split.
      * apply in_range. destruct E2 as (dim' & md' & t' & en' & sub' & m' & lo' & c' & H1 & _ & _ & _ & H5 & H6 & _).
        rewrite Hs in H1. injection H1 as <- <-. rewrite Een in H5. injection H5 as <-. exact H6.
      * split; [|exact E2]. destruct k as [[s0 i0] n0]. simpl in *. subst. reflexivity.
Qed.

(** make_integral_moment_dofs: its result has the keys (slot, entity, number) in lexicographic order, and there
    is exactly one degree of freedom for every slot that is given, every sub-entity whose moment space exists
    and every basis function of that space, with the data of the specification, attached to that entity. *)
Theorem C50_moments_numbered r a ds :
  make_integral_moment_dofs cls kwargs no_kwargs min_order dof_count r a = Ok ds ->
  exists keys, length keys = length ds /\ StronglySorted before keys /\
    forall s i n d, In ((s, i, n), d) (combine keys ds) <-> moment_for r (keyword_slots r a) s i n d.
Proof.
  unfold make_integral_moment_dofs. change (slots cls kwargs r a) with (keyword_slots r a). set (l := keyword_slots r a). clearbody l.
  destruct (map_r _ l) as [blocks|] eqn:Eb; [|discriminate]. cbn [rmap]. intros H. injection H as <-.
  apply map_r_split in Eb.
  assert (Eb' : Forall2 (fun s b => exists x, nth_error l s = Some x /\ slot_dofs cls kwargs no_kwargs min_order dof_count r (fst x) (snd x) = Ok b) (range (length l)) blocks).
  { unfold range. assert (G : forall pre l0 bl, Forall2 (fun x b => slot_dofs cls kwargs no_kwargs min_order dof_count r (fst x) (snd x) = Ok b) l0 bl ->
      Forall2 (fun s b => exists x, nth_error (pre ++ l0) s = Some x /\ slot_dofs cls kwargs no_kwargs min_order dof_count r (fst x) (snd x) = Ok b) (seq (length pre) (length l0)) bl).
    { intros pre l0 bl F. revert pre. induction F as [|x b l0 bl Hx _ IH]; intros pre; simpl; constructor.
      - exists x. split; [|exact Hx]. rewrite nth_error_app2, Nat.sub_diag by lia. reflexivity.
      - specialize (IH (pre ++ [x])%list). rewrite app_length in IH. simpl in IH. rewrite Nat.add_1_r, <- app_assoc in IH. exact IH. }
    exact (G [] l blocks Eb). }
  destruct (concat_keys (fun k => fst (fst k)) (fun _ => True) (fun s k d => fst (fst k) = s /\ moment_for r l s (snd (fst k)) (snd k) d) (range (length l)) blocks) as [keys [K1 [K2 [K3 K4]]]].
  - intros [[s1 i1] n1] [[s2 i2] n2]. simpl. auto.
  - apply range_sorted.
  - apply Forall2_impl_in with (2 := Eb'). intros s b _ [[dim md] [Hx Hb]].
    destruct (slot_keys r l s dim md b Hx Hb) as [keys [A1 [A2 [A3 A4]]]]. exists keys. split; [exact A1|]. split; [exact A2|].
    split; [intros k Hk; split; [exact (A3 k Hk)|exact I]|exact A4].
  - exists keys. split; [exact K1|]. split; [exact K2|]. intros s i n d. rewrite K4. simpl. split.
    + intros [j [_ [-> H]]]. exact H.
    + intros H. exists s. split; [|auto]. apply in_range. destruct H as (dim' & md' & t' & en' & sub' & m' & lo' & c' & H1 & _).
      apply nth_error_Some. rewrite H1. discriminate.
Qed.

(** Moments on vertices are always rejected. *)
Theorem C50_vertices_rejected r a md : vertices cls kwargs a = Some md ->
  make_integral_moment_dofs cls kwargs no_kwargs min_order dof_count r a = Err AssertionError.
Proof. intros H. unfold make_integral_moment_dofs, slots. rewrite H. reflexivity. Qed.

Lemma sorted_transfer {A B} (R : A -> A -> Prop) (R' : B -> B -> Prop) keys ds : length keys = length ds -> StronglySorted R keys ->
  (forall k k' d d', In (k, d) (combine keys ds) -> In (k', d') (combine keys ds) -> R k k' -> R' d d') -> StronglySorted R' ds.
Proof.
  intros L S. revert ds L. induction S as [|k keys S IH Hk]; intros [|d ds] L H; try discriminate; constructor.
  - apply IH; [simpl in L; congruence|]. intros k1 k2 d1 d2 H1 H2. apply H; right; assumption.
  - apply Forall_forall. intros d' Hd'. apply In_nth_error in Hd'. destruct Hd' as [j Hj].
    destruct (nth_error keys j) as [k'|] eqn:Ek.
    + rewrite Forall_forall in Hk. apply (H k k' d d'); [left; reflexivity| |apply Hk; apply nth_error_In with j; exact Ek].
      right. clear - Hj Ek. revert keys ds Hj Ek. induction j as [|j IH]; intros [|k0 keys] [|d0 ds]; simpl; try discriminate.
      * intros E1 E2. injection E1 as <-. injection E2 as <-. auto.
      * intros E1 E2. right. apply IH; assumption.
    + apply nth_error_None in Ek. assert (j < length ds) by (apply nth_error_Some; congruence). simpl in L. lia.
Qed.

(** When moments are only given by edges, faces, volumes, or only by facets, cells, ridges, peaks, the degrees of
    freedom come in order of the dimension of their entity, then of its number. *)
Theorem C50_by_dimension_partial r a ds :
  make_integral_moment_dofs cls kwargs no_kwargs min_order dof_count r a = Ok ds ->
  (edges_ _ _ a = None /\ faces_ _ _ a = None /\ volumes_ _ _ a = None) \/
  (cells _ _ a = None /\ facets _ _ a = None /\ ridges _ _ a = None /\ peaks _ _ a = None) ->
  StronglySorted (fun x y => (fst (d_entity _ _ x) < fst (d_entity _ _ y))%Z \/
    (fst (d_entity _ _ x) = fst (d_entity _ _ y) /\ (snd (d_entity _ _ x) < snd (d_entity _ _ y) \/
      (snd (d_entity _ _ x) = snd (d_entity _ _ y) /\ d_number _ _ x < d_number _ _ y)))) ds.
Proof.
  intros H Hone. destruct (C50_moments_numbered r a ds H) as [keys [L [S C]]].
  assert (V : vertices cls kwargs a = None) by (destruct (vertices cls kwargs a) eqn:E; [rewrite (C50_vertices_rejected r a _ E) in H; discriminate|reflexivity]).
  assert (D : forall s i n d, moment_for r (keyword_slots r a) s i n d ->
    snd (d_entity _ _ d) = i /\ d_number _ _ d = n /\ nth_error (map fst (keyword_slots r a)) s = Some (fst (d_entity _ _ d)) /\
    exists md, nth_error (map snd (keyword_slots r a)) s = Some (Some md)).
  { intros s i n d (dim' & md' & t' & en' & sub' & m' & lo' & c' & H1 & _ & _ & _ & _ & _ & _ & _ & _ & _ & _ & _ & ->). simpl.
    repeat split. - apply (map_nth_error fst s (keyword_slots r a) H1). - exists md'. apply (map_nth_error snd s (keyword_slots r a) H1). }
  assert (M : forall s s' i i' n n' d d', s < s' -> moment_for r (keyword_slots r a) s i n d -> moment_for r (keyword_slots r a) s' i' n' d' ->
    (fst (d_entity _ _ d) < fst (d_entity _ _ d'))%Z).
  { intros s s' i i' n n' d d' Hlt Hm Hm'. apply D in Hm. apply D in Hm'. destruct Hm as (_ & _ & A1 & md1 & A2). destruct Hm' as (_ & _ & B1 & md2 & B2).
    unfold keyword_slots in A1, A2, B1, B2. cbn [map fst snd] in *.
    destruct Hone as [[O1 [O2 O3]]|[O1 [O2 [O3 O4]]]]; rewrite V, O1, O2, O3, ?O4 in *;
    destruct s as [|[|[|[|[|[|[|[|s]]]]]]]]; cbn [nth_error] in A1, A2; try discriminate; try (destruct s; discriminate);
    destruct s' as [|[|[|[|[|[|[|[|s']]]]]]]]; cbn [nth_error] in B1, B2; try discriminate; try (destruct s'; discriminate); try lia;
    injection A1 as A1; injection B1 as B1; lia. }
  apply (sorted_transfer before _ keys ds L S). intros [[s i] n] [[s' i'] n'] d d' Hd Hd' Hb. apply C in Hd. apply C in Hd'.
  destruct Hb as [Hb|[<- Hb]]; [left; apply (M s s' i i' n n' d d' Hb Hd Hd')|]. right.
  apply D in Hd. apply D in Hd'. destruct Hd as (<- & <- & A1 & _). destruct Hd' as (<- & <- & B1 & _). rewrite A1 in B1.
  split; [congruence|exact Hb].
Qed.
End C50.

(** Beside the theorems: classes called by their names, the element class having min_order 0 and, in order k,
    (k+1) basis functions on an interval, (k+1)(k+2)/2 on a triangle. *)
Definition lagrange_min (c : string) : res Z := if String.eqb c "Lagrange" then Ok 0%Z else Err TypeError.
Definition lagrange_count (c : string) (t : cell_type) (k : Z) (_ : unit) : res nat :=
  match t with
  | CInterval => Ok (S (Z.to_nat k))
  | CTriangle => Ok (Nat.div2 (S (Z.to_nat k) * S (S (Z.to_nat k))))
  | _ => Err NotImplementedError
  end.
Definition args (edges faces facets cells_ : option (mval string unit)) : moment_args string unit :=
  {| vertices := None; edges_ := edges; faces_ := faces; volumes_ := None; cells := cells_; facets := facets; ridges := None; peaks := None |}.
Definition a_triangle : reference := default CTriangle.
Definition md (k : Z) : mval string unit := MTuple [MType "IntegralMoment"; MType "Lagrange"; MInt k].
Definition summary (ds : list (dof string unit)) := map (fun d => (d_entity _ _ d, d_number _ _ d)) ds.
Definition make := make_integral_moment_dofs string unit tt lagrange_min lagrange_count.

(** On a triangle with facets of order 1 and a cell of order 0: two moments per edge, one inside. *)
Example C50_case : rmap summary (make a_triangle (args None None (Some (md 1)) (Some (md 0)))) =
  Ok [((1%Z, 0), 0); ((1%Z, 0), 1); ((1%Z, 1), 0); ((1%Z, 1), 1); ((1%Z, 2), 0); ((1%Z, 2), 1); ((2%Z, 0), 0)].
Proof. reflexivity. Qed.
(** Orders below the lowest of the element give no moments; an argument for a dimension that the cell does not have is ignored. *)
Example C50_case_low : rmap summary (make a_triangle (args (Some (md 0)) (Some (md (-1))) None None)) =
  Ok [((1%Z, 0), 0); ((1%Z, 1), 0); ((1%Z, 2), 0)].
Proof. reflexivity. Qed.
(** On a prism the faces have two types, and a specification by cell name gives each its own; this one lacks the quadrilaterals. *)
Example C50_case_missing : make (default CPrism) (args None (Some (MDict [("triangle", md 0)] tt)) None None) = Err KeyError.
Proof. reflexivity. Qed.
Example C50_case_read : says string unit tt (MDict [("interval", md 3); ("triangle", MTuple [MType "IntegralMoment"; MType "Lagrange"; MInt 2; MStr "covariant"])] tt)
  "triangle" (Build_moment string unit "IntegralMoment" "Lagrange" 2 (Some "covariant") tt).
Proof. apply says_entry with (v := MTuple [MType "IntegralMoment"; MType "Lagrange"; MInt 2; MStr "covariant"]).
  - exists [("interval", md 3)], []. split; [reflexivity|]. simpl. intros [H|[]]. discriminate.
  - constructor.
Qed.
Example C50_case_sorted : exists ds, make a_triangle (args None None (Some (md 1)) (Some (md 0))) = Ok ds /\ length ds = 7.
Proof. eexists. split; reflexivity. Qed.
Example C50_case_vertices : make a_triangle {| vertices := Some (md 1); edges_ := Some (md 1); faces_ := None; volumes_ := None; cells := None; facets := None; ridges := None; peaks := None |} = Err AssertionError.
Proof. apply C50_vertices_rejected with (md := md 1). reflexivity. Qed.

(** The full statement, order by dimension for every combination of arguments, is false: with faces and facets
    both given on a triangle, the moment inside comes before those on the edges. *)
Theorem C50_by_dimension_refuted : exists r a ds, make r a = Ok ds /\
  exists j j' d d', j < j' /\ nth_error ds j = Some d /\ nth_error ds j' = Some d' /\ (fst (d_entity _ _ d') < fst (d_entity _ _ d))%Z.
Proof.
  exists a_triangle, (args None (Some (md 0)) (Some (md 0)) None). eexists. split; [reflexivity|].
  exists 0, 1. eexists. eexists. split; [auto|]. split; [reflexivity|]. split; [reflexivity|]. simpl. lia.
Qed.

Print Assumptions C50_specification_read.
Print Assumptions C50_moments_numbered.
Print Assumptions C50_vertices_rejected.
Print Assumptions C50_by_dimension_partial.
Print Assumptions C50_by_dimension_refuted.
