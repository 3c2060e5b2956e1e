(** Proofs about the element bookkeeping model. *)
From Coq Require Import String Arith Bool Lia Permutation Sorted List.
From Verif Require Import Base ElementModel.
Import ListNotations.

(** * Specification vocabulary *)
(** (d, k) is a sub-entity of a cell with [counts] sub-entities per dimension *)
Definition is_entity (counts : list nat) (de : entity) : Prop :=
  exists c, nth_error counts (fst de) = Some c /\ snd de < c.
Definition increasing (l : list nat) : Prop := StronglySorted lt l.
(** every number below n is in the list of exactly one sub-entity, once, and nothing else is in any list *)
Definition partitions (counts : list nat) (n : nat) (f : nat -> nat -> list nat) : Prop :=
  (forall d k, increasing (f d k)) /\
  (forall d k i, In i (f d k) -> i < n) /\
  (forall i, i < n -> exists de, is_entity counts de /\ In i (f (fst de) (snd de)) /\
                       forall d k, In i (f d k) -> (d, k) = de).

Lemma entity_eqb_eq a b : entity_eqb a b = true <-> a = b.
Proof.
  unfold entity_eqb. rewrite andb_true_iff, !Nat.eqb_eq. destruct a, b; simpl. split; [intros []; congruence|].
  intros E; inversion E; auto.
Qed.

Lemma in_combine_seq {A} (l : list A) : forall s i a,
  In (i, a) (combine (seq s (length l)) l) <-> s <= i /\ nth_error l (i - s) = Some a.
Proof.
  induction l as [|b l IH]; intros s i a; simpl; [split; [tauto|intros [_ H]; destruct (i - s); discriminate]|].
  rewrite IH. split.
  - intros [E|[H1 H2]].
    + injection E as -> ->. rewrite Nat.sub_diag. split; [lia|reflexivity].
    + split; [lia|]. replace (i - s) with (S (i - S s)) by lia. exact H2.
  - intros [H1 H2]. destruct (Nat.eq_dec s i) as [->|Hne].
    + left. rewrite Nat.sub_diag in H2. simpl in H2. congruence.
    + right. split; [lia|]. replace (i - s) with (S (i - S s)) in H2 by lia. exact H2.
Qed.

Lemma in_enumerate {A} (l : list A) i a : In (i, a) (enumerate l) <-> nth_error l i = Some a.
Proof. unfold enumerate, range. rewrite in_combine_seq, Nat.sub_0_r. split; [tauto|split; [lia|assumption]]. Qed.

Lemma in_entity_dofs_of ents d k i : In i (entity_dofs_of ents d k) <-> nth_error ents i = Some (d, k).
Proof.
  unfold entity_dofs_of. rewrite in_map_iff. split.
  - intros ([j e] & <- & H). apply filter_In in H. destruct H as [H E]. apply in_enumerate in H.
    apply entity_eqb_eq in E. simpl in *. subst e. exact H.
  - intros H. exists (i, (d, k)). split; [reflexivity|]. apply filter_In. split; [apply in_enumerate; exact H|].
    apply entity_eqb_eq. reflexivity.
Qed.

Lemma increasing_filter_seq {A} (P : nat * A -> bool) (l : list A) : forall s,
  increasing (map fst (filter P (combine (seq s (length l)) l))) /\
  Forall (fun i => s <= i) (map fst (filter P (combine (seq s (length l)) l))).
Proof.
  induction l as [|a l IH]; intros s; simpl; [split; constructor|].
  destruct (IH (S s)) as [H1 H2]. destruct (P (s, a)); simpl.
  - split; [constructor; [exact H1|exact H2]|]. constructor; [lia|].
    eapply Forall_impl; [|exact H2]. intros; simpl in *; lia.
  - split; [exact H1|]. eapply Forall_impl; [|exact H2]. intros; simpl in *; lia.
Qed.

Lemma entity_dofs_partition counts ents :
  (forall de, In de ents -> is_entity counts de) ->
  partitions counts (length ents) (entity_dofs_of ents).
Proof.
  intros H. split; [intros d k; apply increasing_filter_seq|]. split.
  - intros d k i Hi. apply in_entity_dofs_of in Hi. apply nth_error_Some. congruence.
  - intros i Hi. apply nth_error_Some in Hi. destruct (nth_error ents i) as [[d k]|] eqn:E; [|tauto].
    exists (d, k). split; [apply H; eapply nth_error_In; eassumption|]. split; [apply in_entity_dofs_of; exact E|].
    intros d' k' H'. apply in_entity_dofs_of in H'. congruence.
Qed.

(** * cell_entities *)
Lemma in_cell_entities counts de : In de (cell_entities counts) <-> is_entity counts de.
Proof.
  unfold cell_entities, is_entity. rewrite in_flat_map. split.
  - intros ([d c] & H1 & H2). apply in_enumerate in H1. apply in_map_iff in H2. destruct H2 as (e & <- & H2).
    apply in_range in H2. exists c. auto.
  - intros (c & H1 & H2). exists (fst de, c). split; [apply in_enumerate; exact H1|].
    apply in_map_iff. exists (snd de). split; [destruct de; reflexivity|apply in_range; exact H2].
Qed.

(** * Enriched elements *)
(** What every element promises. *)
Definition wf_element {Fn} (counts : list nat) (e : element Fn) : Prop :=
  partitions counts (el_space_dim e) (el_entity_dofs e) /\
  length (el_dof_entities e) = el_space_dim e /\
  (forall d k i, In i (el_entity_dofs e d k) <-> nth_error (el_dof_entities e) i = Some (d, k)) /\
  (forall fs, el_basis e = Ok fs -> length fs = el_space_dim e).

Lemma ciarlet_wf {Fn} counts ref dom rd shape ents (basis : res (list Fn)) :
  (forall de, In de ents -> is_entity counts de) ->
  (forall fs, basis = Ok fs -> length fs = length ents) ->
  wf_element counts (ciarlet_element ref dom rd shape ents basis).
Proof.
  intros H Hb. split; [apply entity_dofs_partition; exact H|]. split; [reflexivity|].
  split; [intros d k i; apply in_entity_dofs_of|exact Hb].
Qed.

Lemma direct_wf {Fn} counts ref dom rd shape ents (fns : list Fn) :
  (forall de, In de ents -> is_entity counts de) -> length fns = length ents ->
  wf_element counts (direct_element ref dom rd shape fns ents).
Proof.
  intros H Hb. split; [simpl; rewrite Hb; apply entity_dofs_partition; exact H|]. split; [simpl; congruence|].
  split; [intros d k i; apply in_entity_dofs_of|]. simpl. intros fs E. injection E as <-. reflexivity.
Qed.

Lemma increasing_app l1 l2 n : increasing l1 -> increasing l2 -> Forall (fun i => i < n) l1 ->
  Forall (fun i => n <= i) l2 -> increasing (l1 ++ l2).
Proof.
  intros H1 H2 F1 F2. induction l1 as [|a l1 IH]; [exact H2|].
  inversion H1 as [|? ? Hs Hf]; subst. inversion F1; subst. simpl. constructor; [apply IH; assumption|].
  apply Forall_app. split; [exact Hf|]. eapply Forall_impl; [|exact F2]. intros; simpl in *; lia.
Qed.

Lemma increasing_shift s l : increasing l -> increasing (map (fun i => s + i) l).
Proof.
  induction 1 as [|a l H IH F]; simpl; constructor; [exact IH|].
  apply Forall_map. eapply Forall_impl; [|exact F]. intros; simpl in *; lia.
Qed.

Lemma nth_error_flat_entities {Fn} (subs : list (element Fn)) : Forall (fun e => length (el_dof_entities e) = el_space_dim e) subs ->
  length (flat_map el_dof_entities subs) = list_sum (map el_space_dim subs).
Proof. induction 1 as [|e subs H _ IH]; simpl; [reflexivity|]. rewrite app_length, IH, H. reflexivity. Qed.

Lemma enriched_in {Fn} counts (subs : list (element Fn)) : Forall (wf_element counts) subs -> forall start d k i,
  In i (enriched_entity_dofs start subs d k) <->
  start <= i /\ nth_error (flat_map el_dof_entities subs) (i - start) = Some (d, k).
Proof.
  induction 1 as [|e subs He _ IH]; intros start d k i; simpl.
  - split; [tauto|]. intros [_ H]. destruct (i - start); discriminate.
  - destruct He as ((_ & Hb & _) & Hl & Hin & _). rewrite in_app_iff, IH, in_map_iff. split.
    + intros [(j & <- & Hj)|[H1 H2]].
      * split; [lia|]. replace (start + j - start) with j by lia. rewrite nth_error_app1 by (rewrite Hl; eauto).
        apply Hin. exact Hj.
      * split; [lia|]. rewrite nth_error_app2 by lia. rewrite Hl.
        replace (i - start - el_space_dim e) with (i - (start + el_space_dim e)) by lia. exact H2.
    + intros [H1 H2]. destruct (Nat.lt_ge_cases (i - start) (el_space_dim e)) as [Hlt|Hge].
      * left. exists (i - start). split; [lia|]. rewrite nth_error_app1 in H2 by lia. apply Hin. exact H2.
      * right. split; [lia|]. rewrite nth_error_app2 in H2 by lia. rewrite Hl in H2.
        replace (i - (start + el_space_dim e)) with (i - start - el_space_dim e) by lia. exact H2.
Qed.

Lemma enriched_increasing {Fn} counts (subs : list (element Fn)) : Forall (wf_element counts) subs -> forall start d k,
  increasing (enriched_entity_dofs start subs d k) /\ Forall (fun i => start <= i) (enriched_entity_dofs start subs d k).
Proof.
  induction 1 as [|e subs He _ IH]; intros start d k; simpl; [split; constructor|].
  destruct He as ((Hi & Hb & _) & _). destruct (IH (start + el_space_dim e) d k) as [H1 H2]. split.
  - apply (increasing_app _ _ (start + el_space_dim e)); [apply increasing_shift; apply Hi|exact H1| |exact H2].
    apply Forall_map, Forall_forall. intros i Hin. apply Hb in Hin. lia.
  - apply Forall_app. split; [apply Forall_map, Forall_forall; intros; lia|].
    eapply Forall_impl; [|exact H2]. intros; simpl in *; lia.
Qed.

Lemma concat_res_ok {A} (l : list (res (list A))) fs : concat_res l = Ok fs <->
  exists ls, l = map Ok ls /\ fs = concat ls.
Proof.
  revert fs. induction l as [|r l IH]; intros fs; simpl.
  - split; [intros E; injection E as <-; exists []; auto|]. intros ([|] & E & ->); [reflexivity|discriminate].
  - destruct r as [a|e]; simpl.
    + destruct (concat_res l) as [b|e] eqn:E; simpl.
      * destruct (IH b) as [IH1 _]. destruct (IH1 eq_refl) as (ls & -> & ->). split.
        -- intros E2. injection E2 as <-. exists (a :: ls). auto.
        -- intros ([|a' ls'] & E2 & ->); [discriminate|]. simpl in E2. injection E2 as -> E2.
           assert (ls' = ls) as ->; [|reflexivity]. clear -E2.
           assert (Hinj : forall x y : list A, Ok x = Ok y -> x = y) by (intros x y Exy; injection Exy; auto).
           revert ls' E2. induction ls as [|x ls IH]; intros [|y ls'] E2; try discriminate; [reflexivity|].
           simpl in E2. injection E2 as -> E2. f_equal. apply IH. exact E2.
      * split; [discriminate|]. intros ([|a' ls'] & E2 & ->); [discriminate|]. simpl in E2. injection E2 as -> E2.
        destruct (IH (concat ls')) as [_ IH2]. discriminate (IH2 (ex_intro _ ls' (conj E2 eq_refl))).
    + split; [discriminate|]. intros ([|] & E & _); discriminate.
Qed.

Lemma enriched_wf {Fn} counts (subs : list (element Fn)) e : Forall (wf_element counts) subs ->
  enriched_element subs = Ok e -> wf_element counts e.
Proof.
  intros Hs He. unfold enriched_element in He. destruct subs as [|e0 subs']; [discriminate|].
  set (subs := e0 :: subs') in *. destruct (forallb (compatible e0) subs); [|discriminate]. clearbody subs.
  assert (Hlen : length (flat_map el_dof_entities subs) = list_sum (map el_space_dim subs)).
  { apply nth_error_flat_entities. eapply Forall_impl; [|exact Hs]. intros x H. apply H. }
  assert (Hin : forall d k i, In i (enriched_entity_dofs 0 subs d k) <->
                  nth_error (flat_map el_dof_entities subs) i = Some (d, k)).
  { intros d k i. rewrite (enriched_in counts subs Hs). rewrite Nat.sub_0_r. split; [tauto|split; [lia|assumption]]. }
  injection He as <-. unfold wf_element. cbn [el_space_dim el_entity_dofs el_dof_entities el_basis].
  split; [split; [|split]|split; [exact Hlen|split; [exact Hin|]]].
  - intros d k. exact (proj1 (enriched_increasing counts subs Hs 0 d k)).
  - intros d k i Hi. rewrite <- Hlen. apply nth_error_Some. apply Hin in Hi. congruence.
  - intros i Hi. rewrite <- Hlen in Hi. apply nth_error_Some in Hi.
    destruct (nth_error (flat_map el_dof_entities subs) i) as [[d k]|] eqn:E; [|tauto].
    exists (d, k). split; [|split; [apply Hin; exact E|intros d' k' H; apply Hin in H; congruence]].
    apply nth_error_In in E. apply in_flat_map in E. destruct E as (x & Hx & Hx2).
    rewrite Forall_forall in Hs. destruct (Hs x Hx) as ((_ & _ & Hex) & Hl & Hm & _).
    apply In_nth_error in Hx2. destruct Hx2 as (j & Hj).
    destruct (Hex j) as (de & Hde & _ & Hu); [rewrite <- Hl; apply nth_error_Some; congruence|].
    rewrite (Hu d k); [exact Hde|]. apply Hm. exact Hj.
  - intros fs Hfs. apply concat_res_ok in Hfs. destruct Hfs as (ls & E & ->).
    clear Hlen Hin. revert ls E. induction Hs as [|x l Hx _ IH]; intros [|a ls] E; try discriminate; [reflexivity|].
    simpl in E. injection E as E1 E2. simpl. rewrite app_length, (IH ls E2). f_equal. apply Hx. exact E1.
Qed.

(** position k of the enriched element: sub-element s, local number l *)
Lemma enriched_basis {Fn} counts (subs : list (element Fn)) e fs : Forall (wf_element counts) subs ->
  enriched_element subs = Ok e -> el_basis e = Ok fs ->
  el_space_dim e = list_sum (map el_space_dim subs) /\
  forall s x l, nth_error subs s = Some x -> l < el_space_dim x ->
    exists xs, el_basis x = Ok xs /\
    nth_error fs (list_sum (map el_space_dim (firstn s subs)) + l) = nth_error xs l /\
    nth_error (el_dof_entities e) (list_sum (map el_space_dim (firstn s subs)) + l) = nth_error (el_dof_entities x) l.
Proof.
  intros Hs He Hb. unfold enriched_element in He. destruct subs as [|e0 subs']; [discriminate|].
  set (subs := e0 :: subs') in *. destruct (forallb (compatible e0) subs); [|discriminate]. clearbody subs.
  injection He as <-. split; [reflexivity|]. cbn [el_basis el_dof_entities] in *. clear e0 subs'.
  revert fs Hb. induction Hs as [|x l Hx Hl IH]; intros fs Hb s y i Hy Hi; [destruct s; discriminate|].
  simpl in Hb. destruct (el_basis x) as [xs|] eqn:Ex; [|discriminate]. simpl in Hb.
  destruct (concat_res (map el_basis l)) as [fs'|] eqn:Ef; [|discriminate]. simpl in Hb. injection Hb as <-.
  assert (Lx : length xs = el_space_dim x) by (apply Hx; exact Ex).
  assert (Dx : length (el_dof_entities x) = el_space_dim x) by apply Hx.
  destruct s as [|s]; simpl in Hy.
  - injection Hy as <-. exists xs. simpl. split; [exact Ex|]. split; rewrite nth_error_app1 by lia; reflexivity.
  - destruct (IH fs' eq_refl s y i Hy Hi) as (ys & E1 & E2 & E3). exists ys. split; [exact E1|].
    cbn [firstn map list_sum fold_right flat_map]. split.
    + rewrite nth_error_app2 by (simpl; lia). rewrite <- E2. f_equal. rewrite Lx. unfold list_sum. lia.
    + rewrite nth_error_app2 by (simpl; lia). rewrite <- E3. f_equal. rewrite Dx. unfold list_sum. lia.
Qed.

(** * Tabulation *)
Section Tab.
Context {A : Type}.

Lemma heads_ok (rs : list (list A)) n : Forall (fun r => length r = S n) rs -> exists hs,
  concat_res (map (fun r => match r with [] => Err IndexError | h :: _ => Ok [h] end) rs) = Ok hs /\
  length hs = length rs /\ (forall i, nth_error hs i = match nth_error rs i with Some r => nth_error r 0 | None => None end).
Proof.
  induction 1 as [|r rs Hr _ (hs & E & L & N)]; simpl.
  - exists []. split; [reflexivity|]. split; [reflexivity|]. intros [|i]; reflexivity.
  - destruct r as [|h r]; [discriminate|]. exists (h :: hs). simpl. rewrite E. simpl. split; [reflexivity|].
    split; [simpl; congruence|]. intros [|i]; [reflexivity|apply N].
Qed.

Lemma zip_first_spec (r0 : list A) : forall rs, Forall (fun r => length r = length r0) rs ->
  length (zip_first r0 rs) = length r0 /\
  forall c, c < length r0 -> exists col, nth_error (zip_first r0 rs) c = Some col /\ length col = S (length rs) /\
    forall b, nth_error col b = match nth_error (r0 :: rs) b with Some r => nth_error r c | None => None end.
Proof.
  induction r0 as [|a r0 IH]; intros rs H; [split; [reflexivity|intros c Hc; simpl in Hc; lia]|].
  destruct (heads_ok rs (length r0) H) as (hs & E & L & N). simpl zip_first. rewrite E.
  assert (H' : Forall (fun r => length r = length r0) (map (@tl A) rs)).
  { apply Forall_map. eapply Forall_impl; [|exact H]. intros [|x r] Hr; simpl in *; lia. }
  destruct (IH _ H') as [L' N']. split; [simpl; congruence|]. intros [|c] Hc.
  - exists (a :: hs). split; [reflexivity|]. split; [simpl; congruence|]. intros [|b]; [reflexivity|apply N].
  - destruct (N' c) as (col & Ec & Lc & Nc); [simpl in Hc; lia|]. exists col. split; [exact Ec|].
    split; [rewrite Lc, map_length; reflexivity|]. intros b. rewrite Nc. destruct b as [|b]; [reflexivity|].
    simpl. rewrite nth_error_map. destruct (nth_error rs b) as [r|] eqn:Eb; [|reflexivity].
    simpl. assert (length r = S (length r0)).
    { rewrite Forall_forall in H. apply H. eapply nth_error_In; eassumption. }
    destruct r; [discriminate|reflexivity].
Qed.

Lemma zip_star_spec (rows : list (list A)) rd : rows <> [] -> Forall (fun r => length r = rd) rows ->
  length (zip_star rows) = rd /\
  forall c, c < rd -> exists col, nth_error (zip_star rows) c = Some col /\ length col = length rows /\
    forall b, nth_error col b = match nth_error rows b with Some r => nth_error r c | None => None end.
Proof.
  destruct rows as [|r0 rs]; [congruence|]. intros _ H. inversion H as [|? ? H0 H1]; subst. exact (zip_first_spec r0 rs H1).
Qed.

Lemma nth_error_concat (ls : list (list A)) n : Forall (fun l => length l = n) ls ->
  length (concat ls) = length ls * n /\
  forall i j, j < n -> nth_error (concat ls) (i * n + j) = match nth_error ls i with Some l => nth_error l j | None => None end.
Proof.
  induction 1 as [|l ls Hl _ [IH1 IH2]]; simpl.
  - split; [reflexivity|]. intros i j _. destruct (i * n + j), i; reflexivity.
  - split; [rewrite app_length; lia|]. intros [|i] j Hj; simpl.
    + rewrite nth_error_app1 by lia. reflexivity.
    + rewrite nth_error_app2 by lia. rewrite <- IH2 by exact Hj. f_equal. lia.
Qed.

Lemma all_entries_ok (rows : list (list A)) : all_entries (map Entries rows) = Ok rows.
Proof. induction rows as [|r rows IH]; simpl; [reflexivity|]. rewrite IH. reflexivity. Qed.

Lemma map_res_ok {B C} (f : B -> res C) g (l : list B) : (forall b, In b l -> f b = Ok (g b)) -> map_res f l = Ok (map g l).
Proof.
  induction l as [|b l IH]; intros H; simpl; [reflexivity|]. rewrite (H b) by (left; reflexivity).
  simpl. rewrite IH by (intros; apply H; right; assumption). reflexivity.
Qed.
End Tab.

(** * map_to_cell *)
Section MTC.
Context {Fn : Type} (zero_fn : Fn) (perform : key -> res (Fn -> Fn)).

Lemma key_eqb_eq a b : key_eqb a b = true <-> a = b.
Proof.
  unfold key_eqb. rewrite andb_true_iff, Nat.eqb_eq. destruct a as [a [x|]], b as [b [y|]]; simpl;
    rewrite ?Nat.eqb_eq; split; intros H; try (destruct H; congruence); injection H; auto; try discriminate.
Qed.

Lemma length_set_nth {X} n (a : X) l : length (set_nth n a l) = length l.
Proof. revert n. induction l as [|b l IH]; intros [|n]; simpl; congruence. Qed.

Lemma nth_set_nth {X} (l : list X) : forall n a i, n < length l ->
  nth_error (set_nth n a l) i = if Nat.eqb i n then Some a else nth_error l i.
Proof.
  induction l as [|b l IH]; intros n a i H; simpl in H; [lia|].
  destruct n as [|n], i as [|i]; simpl; try reflexivity. apply IH. lia.
Qed.

(** groups: each member has the group's key *)
Definition dict_ok (dofs : list dof_info) (dict : list (key * list nat)) : Prop :=
  Forall (fun kds => snd kds <> [] /\ Forall (fun d => exists di, nth_error dofs d = Some di /\ dof_key di = fst kds) (snd kds)) dict.
Definition in_dict (dict : list (key * list nat)) d := exists kds, In kds dict /\ In d (snd kds).

Lemma dict_append_ok dofs k d dict : dict_ok dofs dict -> (exists di, nth_error dofs d = Some di /\ dof_key di = k) ->
  dict_ok dofs (dict_append k d dict).
Proof.
  intros H Hd. induction H as [|[k' ds] dict Hk Hr IH]; simpl.
  - constructor; [|constructor]. split; [discriminate|]. constructor; [exact Hd|constructor].
  - destruct (key_eqb k k') eqn:E.
    + apply key_eqb_eq in E. subst k'. constructor; [|assumption].
      cbn [fst snd] in *. split; [destruct ds; discriminate|].
      apply Forall_app. split; [apply Hk|]. constructor; [exact Hd|constructor].
    + constructor; [exact Hk|exact IH].
Qed.

Lemma in_dict_append k d dict x : in_dict (dict_append k d dict) x <-> x = d \/ in_dict dict x.
Proof.
  unfold in_dict. induction dict as [|[k' ds] dict IH]; simpl.
  - split.
    + intros (kds & [<-|[]] & H). simpl in H. destruct H as [<-|[]]. left; reflexivity.
    + intros [->|(kds & [] & _)]. exists (k, [d]). simpl. auto.
  - destruct (key_eqb k k'); simpl.
    + split.
      * intros (kds & [<-|H] & Hx); simpl in Hx.
        -- apply in_app_iff in Hx. destruct Hx as [Hx|[<-|[]]]; [right; exists (k', ds); auto|left; reflexivity].
        -- right. exists kds; auto.
      * intros [->|(kds & [<-|H] & Hx)].
        -- eexists; split; [left; reflexivity|]. simpl. apply in_app_iff. right; left; reflexivity.
        -- eexists; split; [left; reflexivity|]. simpl in *. apply in_app_iff. left; exact Hx.
        -- exists kds. split; [right; exact H|exact Hx].
    + split.
      * intros (kds & [<-|H] & Hx); [right; exists (k', ds); auto|].
        destruct (proj1 IH (ex_intro _ kds (conj H Hx))) as [->|(q & Hq & Hq2)]; [left; reflexivity|].
        right. exists q; auto.
      * intros [->|(kds & [<-|H] & Hx)].
        -- destruct (proj2 IH (or_introl eq_refl)) as (q & Hq & Hq2). exists q; auto.
        -- exists (k', ds). split; [left; reflexivity|exact Hx].
        -- destruct (proj2 IH) as (q & Hq & Hq2); [right; exists kds; auto|]. exists q; auto.
Qed.

Lemma group_dofs_spec dofs ds : Forall (fun d => d < length dofs) ds ->
  dict_ok dofs (group_dofs dofs ds) /\ forall x, in_dict (group_dofs dofs ds) x <-> In x ds.
Proof.
  unfold group_dofs. intros H.
  assert (G : forall dict, dict_ok dofs dict ->
     dict_ok dofs (fold_left (fun dict d => match nth_error dofs d with
        | Some di => dict_append (dof_key di) d dict | None => dict end) ds dict) /\
     forall x, in_dict (fold_left (fun dict d => match nth_error dofs d with
        | Some di => dict_append (dof_key di) d dict | None => dict end) ds dict) x <-> In x ds \/ in_dict dict x).
  { induction H as [|d ds Hd _ IH]; intros dict Hok; simpl; [split; [exact Hok|intros; tauto]|].
    apply nth_error_Some in Hd. destruct (nth_error dofs d) as [di|] eqn:E; [|tauto].
    destruct (IH (dict_append (dof_key di) d dict)) as [I1 I2]; [apply dict_append_ok; [exact Hok|exists di; auto]|].
    split; [exact I1|]. intros x. rewrite I2, in_dict_append. intuition. }
  destruct (G [] (Forall_nil _)) as [G1 G2]. split; [exact G1|]. intros x. rewrite G2.
  split; [intros [?|(k & [] & _)]; assumption|left; assumption].
Qed.

Variable dofs : list dof_info.
Variable basis : list Fn.
Hypothesis Hlen : length basis = length dofs.
(** the function that position d must hold in the end *)
Definition mapped (d : nat) (b : Fn) : Prop :=
  exists di f b0, nth_error dofs d = Some di /\ perform (dof_key di) = Ok f /\ nth_error basis d = Some b0 /\ b = f b0.

(** fs' agrees with fs except at members of ds, where it holds the mapped function *)
Definition writes (ds : nat -> Prop) (fs fs' : list Fn) : Prop :=
  length fs' = length fs /\
  (forall d, ds d -> exists b, nth_error fs' d = Some b /\ mapped d b) /\
  (forall d, ~ ds d -> nth_error fs' d = nth_error fs d).

Lemma writes_trans (P Q S : nat -> Prop) f1 f2 f3 : (forall d, P d \/ ~ P d) -> (forall d, Q d \/ ~ Q d) ->
  writes P f1 f2 -> writes Q f2 f3 -> (forall d, S d <-> P d \/ Q d) -> writes S f1 f3.
Proof.
  intros DP DQ (L1 & A1 & B1) (L2 & A2 & B2) HS. split; [congruence|]. split.
  - intros d Hd. destruct (DQ d) as [HQ|HQ]; [apply A2; exact HQ|].
    rewrite B2 by exact HQ. apply A1. apply HS in Hd. tauto.
  - intros d Hd. rewrite B2, B1; [reflexivity| |]; intros H; apply Hd, HS; tauto.
Qed.

Lemma write_group_ok k ds fs f : perform k = Ok f -> length fs = length basis ->
  Forall (fun d => exists di, nth_error dofs d = Some di /\ dof_key di = k) ds ->
  exists fs', write_group perform basis (k, ds) fs = Ok fs' /\ writes (fun d => In d ds) fs fs'.
Proof.
  intros Hk Hfs H. unfold write_group. simpl fst; simpl snd.
  assert (E : exists bs, map_res (fun d => match nth_error basis d with Some b => Ok b | None => Err IndexError end) ds = Ok bs
     /\ Forall2 (fun d b => nth_error basis d = Some b) ds bs).
  { clear -H Hlen. induction H as [|d ds (di & Hd & _) _ (bs & E & F)]; simpl; [exists []; split; [reflexivity|constructor]|].
    destruct (nth_error basis d) as [b|] eqn:Eb.
    - exists (b :: bs). rewrite E. simpl. split; [reflexivity|]. constructor; assumption.
    - exfalso. apply nth_error_None in Eb. assert (d < length dofs) by (apply nth_error_Some; congruence). lia. }
  destruct E as (bs & E & F2). rewrite E, Hk. simpl. eexists. split; [reflexivity|]. clear E.
  revert fs Hfs. induction F2 as [|d b ds bs Hdb _ IH]; intros fs Hfs; simpl.
  - split; [reflexivity|]. split; [intros d []|reflexivity].
  - inversion H as [|? ? (di & Hd & Hkd) Hr]; subst.
    assert (Hlt : d < length fs) by (rewrite Hfs; apply nth_error_Some; congruence).
    specialize (IH Hr (set_nth d (f b) fs)). rewrite length_set_nth in IH. specialize (IH Hfs).
    eapply (writes_trans (fun x => x = d) (fun x => In x ds)); [intros x; destruct (Nat.eq_dec x d); tauto
      |intros x; destruct (in_dec Nat.eq_dec x ds); tauto| |exact IH|intros x; simpl; intuition].
    split; [apply length_set_nth|]. split.
    + intros x ->. exists (f b). rewrite nth_set_nth by exact Hlt. rewrite Nat.eqb_refl. split; [reflexivity|].
      exists di, f, b. auto.
    + intros x Hx. rewrite nth_set_nth by exact Hlt. destruct (Nat.eqb_spec x d); [contradiction|reflexivity].
Qed.

Hypothesis Hperf : forall di, In di dofs -> exists f, perform (dof_key di) = Ok f.

Lemma write_groups_ok dict : forall fs, length fs = length basis -> dict_ok dofs dict ->
  exists fs', write_groups perform basis dict fs = Ok fs' /\ writes (in_dict dict) fs fs'.
Proof.
  induction dict as [|[k ds] dict IH]; intros fs Hfs Hok; simpl.
  - exists fs. split; [reflexivity|]. split; [reflexivity|]. split; [intros d (q & [] & _)|reflexivity].
  - inversion Hok as [|? ? [Hne H1] H2]; subst. simpl in Hne, H1.
    assert (Hk : exists f, perform k = Ok f).
    { destruct ds as [|d0 ds]; [congruence|]. inversion H1 as [|? ? (di & Hd & <-) _]; subst.
      apply Hperf. eapply nth_error_In; eassumption. }
    destruct Hk as [f Hk]. destruct (write_group_ok k ds fs f Hk Hfs H1) as (fs1 & E1 & W1). rewrite E1. simpl.
    destruct (IH fs1) as (fs2 & E2 & W2); [destruct W1 as [W1 _]; congruence|exact H2|]. exists fs2. split; [exact E2|].
    eapply (writes_trans (fun x => In x ds) (in_dict dict)); [| |exact W1|exact W2|].
    + intros x; destruct (in_dec Nat.eq_dec x ds); tauto.
    + intros x. clear. induction dict as [|[k ds] dict IH]; [right; intros (q & [] & _)|].
      destruct (in_dec Nat.eq_dec x ds) as [H|H]; [left; exists (k, ds); simpl; auto|].
      destruct IH as [(q & Hq & Hq2)|IH]; [left; exists q; simpl; auto|].
      right. intros (q & [<-|Hq] & Hq2); [contradiction|]. apply IH. exists q; auto.
    + intros x. split.
      * intros (q & [<-|Hq] & Hq2); [left; exact Hq2|right; exists q; auto].
      * intros [H|(q & Hq & Hq2)]; [exists (k, ds); simpl; auto|exists q; simpl; auto].
Qed.

Lemma map_entities_ok ents : forall fs, length fs = length basis ->
  exists fs', map_entities perform dofs basis ents fs = Ok fs' /\
    writes (fun d => exists di, nth_error dofs d = Some di /\ In (di_entity di) ents) fs fs'.
Proof.
  induction ents as [|[dim e] ents IH]; intros fs Hfs; simpl.
  - exists fs. split; [reflexivity|]. split; [reflexivity|]. split; [intros d (di & _ & [])|reflexivity].
  - set (ds := entity_dofs_of (map di_entity dofs) dim e).
    assert (Hds : forall d, In d ds <-> exists di, nth_error dofs d = Some di /\ di_entity di = (dim, e)).
    { intros d. unfold ds. rewrite in_entity_dofs_of, nth_error_map. destruct (nth_error dofs d) as [di|]; simpl.
      - split; [intros H; injection H as H; exists di; auto|]. intros (di' & H1 & H2). injection H1 as ->. rewrite H2. reflexivity.
      - split; [discriminate|intros (di' & H & _); discriminate]. }
    destruct (group_dofs_spec dofs ds) as [G1 G2].
    { apply Forall_forall. intros d Hd. apply Hds in Hd. destruct Hd as (di & Hd & _). apply nth_error_Some. congruence. }
    destruct (write_groups_ok (group_dofs dofs ds) fs Hfs G1) as (fs1 & E1 & W1). rewrite E1. simpl.
    destruct (IH fs1) as (fs2 & E2 & W2); [destruct W1 as [W1 _]; congruence|]. exists fs2. split; [exact E2|].
    eapply writes_trans; [| |exact W1|exact W2|].
    + intros x. rewrite G2. destruct (in_dec Nat.eq_dec x ds); tauto.
    + intros x. destruct (nth_error dofs x) as [di|] eqn:Ex; [|right; intros (di' & E & _); congruence].
      assert (Dec : forall a b : entity, {a = b} + {a <> b}) by (intros [] []; decide equality; apply Nat.eq_dec).
      destruct (in_dec Dec (di_entity di) ents) as [H|H]; [left; exists di; auto|].
      right. intros (di' & E & H'). congruence.
    + intros x. rewrite G2, Hds. split.
      * intros (di & H1 & [H2|H2]); [left; exists di; auto|right; exists di; auto].
      * intros [(di & H1 & H2)|(di & H1 & H2)]; exists di; (split; [exact H1|]); [left; symmetry; exact H2|right; exact H2].
Qed.

Lemma map_to_cell_ok counts : (forall di, In di dofs -> is_entity counts (di_entity di)) ->
  exists out, map_to_cell zero_fn perform counts dofs basis = Ok out /\ length out = length basis /\
    forall d di b f, nth_error dofs d = Some di -> nth_error basis d = Some b -> perform (dof_key di) = Ok f ->
      nth_error out d = Some (f b).
Proof.
  intros H. unfold map_to_cell.
  destruct (map_entities_ok (cell_entities counts) (map (fun _ => zero_fn) basis)) as (out & E & L & W & _); [apply map_length|].
  exists out. split; [exact E|]. split; [rewrite L; apply map_length|].
  intros d di b f Hd Hb Hf. destruct (W d) as (b' & E1 & di' & f' & b0 & E2 & E3 & E4 & ->).
  - exists di. split; [exact Hd|]. apply in_cell_entities. apply H. eapply nth_error_In; eassumption.
  - rewrite E1. congruence.
Qed.
End MTC.
