(** Proofs about the element registry. *)
From Coq Require Import String Ascii ZArith Bool Lia List.
From Verif Require Import Base CacheModel RegistryModel.
Import ListNotations.
Open Scope string_scope.

Definition look (m : emap) (n r : string) : option cls :=
  match m n with Some inner => inner r | None => None end.

Definition pair_dec (a b : string * string) : {a = b} + {a <> b}.
Proof. decide equality; apply string_dec. Defined.

Definition put (m : emap) (n r : string) (c : cls) : emap :=
  let m1 := match m n with None => upd_s m n (Some (fun _ => None)) | Some _ => m end in
  let inner := match m1 n with Some i => i | None => fun _ => None end in
  upd_s m1 n (Some (upd_s inner r (Some c))).

Lemma upd_s_eq {A} (m : string -> A) k v : upd_s m k v k = v.
Proof. unfold upd_s. rewrite String.eqb_refl. reflexivity. Qed.
Lemma upd_s_ne {A} (m : string -> A) k k' v : k' <> k -> upd_s m k v k' = m k'.
Proof. unfold upd_s. destruct (String.eqb_spec k' k); [contradiction|reflexivity]. Qed.

Lemma look_m1 m n n' r' :
  look (match m n with None => upd_s m n (Some (fun _ => None)) | Some _ => m end) n' r' = look m n' r'.
Proof.
  unfold look. destruct (m n) eqn:E; [reflexivity|].
  destruct (string_dec n' n) as [->|Hn]; [rewrite upd_s_eq, E; reflexivity|rewrite upd_s_ne by exact Hn; reflexivity].
Qed.

Lemma look_put m n r c n' r' :
  look (put m n r c) n' r' = if pair_dec (n', r') (n, r) then Some c else look m n' r'.
Proof.
  rewrite <- (look_m1 m n n' r'). unfold put.
  set (m1 := match m n with None => upd_s m n (Some (fun _ => None)) | Some _ => m end).
  assert (Hm1 : exists i, m1 n = Some i).
  { unfold m1. destruct (m n) as [i|] eqn:E; [exists i; exact E|]. exists (fun _ => None). apply upd_s_eq. }
  destruct Hm1 as [i Hi]. rewrite Hi. unfold look at 1.
  destruct (string_dec n' n) as [->|Hn].
  - rewrite upd_s_eq. destruct (string_dec r' r) as [->|Hr].
    + rewrite upd_s_eq. destruct (pair_dec _ _); [reflexivity|congruence].
    + rewrite upd_s_ne by exact Hr. unfold look. rewrite Hi.
      destruct (pair_dec _ _); [congruence|reflexivity].
  - rewrite upd_s_ne by exact Hn. destruct (pair_dec _ _); [congruence|reflexivity].
Qed.

(** [register] in terms of look and put *)
Lemma register_cons m c n r rest : register m c ((n, r) :: rest) =
  match look m n r with
  | Some c' => if Nat.eqb (c_id c) (c_id c') then register (put m n r c) c rest
               else (match m n with None => upd_s m n (Some (fun _ => None)) | Some _ => m end, Err AssertionError)
  | None => register (put m n r c) c rest
  end.
Proof.
  rewrite <- (look_m1 m n n r). cbn [register]. unfold put, look.
  set (m1 := match m n with None => upd_s m n (Some (fun _ => None)) | Some _ => m end).
  destruct (m1 n) as [i|]; reflexivity.
Qed.

Definition look_id (m : emap) (n r : string) : option nat := option_map c_id (look m n r).

Lemma look_id_put m n r c n' r' :
  look_id (put m n r c) n' r' = if pair_dec (n', r') (n, r) then Some (c_id c) else look_id m n' r'.
Proof. unfold look_id. rewrite look_put. destruct (pair_dec _ _); reflexivity. Qed.

Lemma register_persist c pairs : forall m n r k, look_id m n r = Some k ->
  look_id (fst (register m c pairs)) n r = Some k.
Proof.
  induction pairs as [|[n0 r0] rest IH]; intros m n r k H; [exact H|]. rewrite register_cons.
  assert (Hput : forall c', look m n0 r0 = Some c' -> c_id c = c_id c' -> look_id (put m n0 r0 c) n r = Some k).
  { intros c' E Ei. rewrite look_id_put. destruct (pair_dec _ _) as [Ep|]; [|exact H].
    injection Ep as -> ->. unfold look_id in H. rewrite E in H. simpl in H. congruence. }
  destruct (look m n0 r0) as [c'|] eqn:E.
  - destruct (Nat.eqb_spec (c_id c) (c_id c')) as [Ei|Ei].
    + apply IH. exact (Hput c' eq_refl Ei).
    + simpl. unfold look_id. rewrite look_m1. exact H.
  - apply IH. rewrite look_id_put. destruct (pair_dec _ _) as [Ep|]; [|exact H].
    injection Ep as -> ->. unfold look_id in H. rewrite E in H. discriminate.
Qed.

Lemma register_ok_spec c pairs : forall m,
  (snd (register m c pairs) = Ok tt <->
     forall n r k, In (n, r) pairs -> look_id m n r = Some k -> k = c_id c) /\
  (snd (register m c pairs) = Ok tt -> forall n r,
     look_id (fst (register m c pairs)) n r = if in_dec pair_dec (n, r) pairs then Some (c_id c) else look_id m n r).
Proof.
  induction pairs as [|[n0 r0] rest IH]; intros m.
  - simpl. split; [split; [intros _ n r k []|reflexivity]|reflexivity].
  - rewrite register_cons.
    assert (Hcont : (forall k, look_id m n0 r0 = Some k -> k = c_id c) ->
      (snd (register (put m n0 r0 c) c rest) = Ok tt <->
         forall n r k, In (n, r) ((n0, r0) :: rest) -> look_id m n r = Some k -> k = c_id c) /\
      (snd (register (put m n0 r0 c) c rest) = Ok tt -> forall n r,
         look_id (fst (register (put m n0 r0 c) c rest)) n r =
         if in_dec pair_dec (n, r) ((n0, r0) :: rest) then Some (c_id c) else look_id m n r)).
    { intros H0. destruct (IH (put m n0 r0 c)) as [IH1 IH2]. split.
      - rewrite IH1. split; intros H n r k Hin Hk.
        + destruct (pair_dec (n, r) (n0, r0)) as [E|Hne].
          * injection E as -> ->. exact (H0 k Hk).
          * destruct Hin as [E|Hin]; [congruence|]. apply (H n r k Hin). rewrite look_id_put.
            destruct (pair_dec _ _); [contradiction|exact Hk].
        + rewrite look_id_put in Hk. destruct (pair_dec _ _) as [_|_]; [congruence|].
          exact (H n r k (or_intror Hin) Hk).
      - intros Hs n r. rewrite (IH2 Hs n r), look_id_put.
        destruct (in_dec pair_dec (n, r) rest) as [Hi|Hi], (in_dec pair_dec (n, r) ((n0, r0) :: rest)) as [Hj|Hj];
          [reflexivity|destruct (Hj (or_intror Hi))| |].
        + destruct Hj as [E|Hj]; [|contradiction]. destruct (pair_dec _ _); [reflexivity|congruence].
        + destruct (pair_dec _ _) as [E|]; [|reflexivity]. destruct (Hj (or_introl (eq_sym E))). }
    destruct (look m n0 r0) as [c'|] eqn:E.
    + destruct (Nat.eqb_spec (c_id c) (c_id c')) as [Ei|Ei].
      * apply Hcont. intros k Hk. unfold look_id in Hk. rewrite E in Hk. simpl in Hk. congruence.
      * simpl. split; [|discriminate]. split; [discriminate|]. intros H. exfalso. apply Ei. symmetry.
        apply (H n0 r0); [left; reflexivity|]. unfold look_id. rewrite E. reflexivity.
    + apply Hcont. intros k Hk. unfold look_id in Hk. rewrite E in Hk. discriminate.
Qed.

Lemma register_out c pairs : forall m, snd (register m c pairs) = Ok tt \/ snd (register m c pairs) = Err AssertionError.
Proof.
  induction pairs as [|[n0 r0] rest IH]; intros m; [left; reflexivity|]. rewrite register_cons.
  destruct (look m n0 r0); [destruct (Nat.eqb _ _); [apply IH|right; reflexivity]|apply IH].
Qed.

Lemma in_pairs_of c n r : In (n, r) (pairs_of c) <-> In n (c_names c) /\ In r (c_references c).
Proof.
  unfold pairs_of. rewrite in_flat_map. split.
  - intros (x & Hx & H). apply in_map_iff in H. destruct H as (y & E & Hy). injection E as -> ->. auto.
  - intros [Hn Hr]. exists n. split; [exact Hn|]. apply in_map_iff. exists r. auto.
Qed.

(** the class with identity [id] is registered for (n, r) *)
Definition resolves (st : registry) (n r : string) (id : nat) : Prop :=
  exists c, lookup st n r = Some c /\ c_id c = id.

Lemma resolves_look_id st n r id : resolves st n r id <-> look_id (r_map st) n r = Some id.
Proof.
  unfold resolves, lookup, look_id, look. destruct (r_map st n) as [i|]; simpl.
  - destruct (i r) as [c|]; simpl; split; [intros (c' & E & H); congruence|intros E; exists c; split; congruence| |discriminate].
    intros (c' & E & _). discriminate.
  - split; [intros (c' & E & _); discriminate|discriminate].
Qed.

Lemma add_persist st o n r id : resolves st n r id -> resolves (fst (add_element st o)) n r id.
Proof.
  rewrite !resolves_look_id. intros H. destruct o as [| | |c]; try exact H.
  simpl. destruct (c_names c); [exact H|].
  pose proof (register_persist c (pairs_of c) (r_map st) n r id H) as P.
  destruct (register (r_map st) c (pairs_of c)) as [m out]. exact P.
Qed.

Lemma run_persist os : forall st n r id, resolves st n r id -> resolves (fst (run_adds st os)) n r id.
Proof.
  induction os as [|o os IH]; intros st n r id H; [exact H|]. simpl.
  pose proof (add_persist st o n r id H) as H1. destruct (add_element st o) as [st1 out].
  specialize (IH st1 n r id H1). destruct (run_adds st1 os) as [st2 outs]. exact IH.
Qed.

Definition claims (o : pyobj) (n r : string) (id : nat) : Prop :=
  exists c, o = ElementClass c /\ c_id c = id /\ In n (c_names c) /\ In r (c_references c).
Definition addable (o : pyobj) : Prop := exists c, o = ElementClass c /\ c_names c <> [].

Lemma add_ok st o : snd (add_element st o) = Ok tt <->
  addable o /\ forall n r id id', claims o n r id -> resolves st n r id' -> id' = id.
Proof.
  unfold addable, claims. destruct o as [| | |c]; simpl;
    try (split; [discriminate|intros [(c & E & _) _]; discriminate]).
  destruct (c_names c) as [|n0 ns] eqn:En.
  - split; [discriminate|]. intros [(c' & E & H) _]. injection E as <-. contradiction.
  - pose proof (proj1 (register_ok_spec c (pairs_of c) (r_map st))) as P.
    destruct (register (r_map st) c (pairs_of c)) as [m out]. simpl in *. rewrite P. split.
    + intros H. split; [exists c; split; [reflexivity|rewrite En; discriminate]|].
      intros n r id id' (c' & E & Hid & Hn & Hr) Hres. injection E as <-. rewrite resolves_look_id in Hres.
      rewrite <- Hid. apply (H n r id'); [|exact Hres]. apply in_pairs_of. auto.
    + intros [_ H] n r k Hin Hk. apply in_pairs_of in Hin. apply (H n r (c_id c) k).
      * exists c. tauto.
      * apply resolves_look_id. exact Hk.
Qed.

Lemma add_ok_lookup st o : snd (add_element st o) = Ok tt ->
  forall n r id, resolves (fst (add_element st o)) n r id <->
    claims o n r id \/ (resolves st n r id /\ forall id', ~ claims o n r id').
Proof.
  unfold claims. destruct o as [| | |c]; simpl; try discriminate.
  destruct (c_names c) as [|n0 ns] eqn:En; [discriminate|].
  pose proof (proj2 (register_ok_spec c (pairs_of c) (r_map st))) as P.
  destruct (register (r_map st) c (pairs_of c)) as [m out]. simpl in *. intros Hout n r id.
  rewrite !resolves_look_id. simpl. rewrite (P Hout n r).
  destruct (in_dec pair_dec (n, r) (pairs_of c)) as [Hi|Hi].
  - split.
    + intros E. left. exists c. apply in_pairs_of in Hi. split; [reflexivity|]. split; [congruence|exact Hi].
    + intros [(c' & E & Hid & _)|[_ Hno]]; [injection E as <-; congruence|].
      exfalso. apply (Hno (c_id c)). exists c. apply in_pairs_of in Hi. tauto.
  - assert (Hno : forall id', ~ exists c', ElementClass c = ElementClass c' /\ c_id c' = id' /\ In n (c_names c') /\ In r (c_references c')).
    { intros id' (c' & E & _ & Hin). injection E as <-. apply Hi. apply in_pairs_of. exact Hin. }
    split; [intros E; right; split; [exact E|exact Hno]|].
    intros [H|[E _]]; [destruct (Hno _ H)|exact E].
Qed.

Definition no_conflict (os : list pyobj) : Prop :=
  forall o o' n r id id', In o os -> In o' os -> claims o n r id -> claims o' n r id' -> id = id'.

Definition all_ok (outs : list (res unit)) : Prop := Forall (fun x => x = Ok tt) outs.

(** the meaning of a successful history, from an arbitrary start *)
Lemma run_ok os : forall st, all_ok (snd (run_adds st os)) <->
  Forall addable os /\ no_conflict os /\
  (forall o n r id id', In o os -> claims o n r id -> resolves st n r id' -> id' = id).
Proof.
  induction os as [|o os IH]; intros st.
  - simpl. split; [intros _|constructor]. split; [constructor|]. split; [intros o o' n r id id' []|intros o n r id id' []].
  - simpl. pose proof (add_ok st o) as A. pose proof (add_ok_lookup st o) as L.
    pose proof (add_persist st o) as Pst.
    destruct (add_element st o) as [st1 out]. simpl in A, L, Pst. specialize (IH st1).
    destruct (run_adds st1 os) as [st2 outs]. simpl in *. unfold all_ok in *. rewrite Forall_cons_iff.
    split.
    + intros [Ho Hos]. destruct (proj1 A Ho) as [Ha Hc]. destruct (proj1 IH Hos) as (Hb & Hnc & Hres).
      specialize (L Ho). split; [constructor; assumption|]. split.
      * intros o1 o2 n r id id' [<-|H1] [<-|H2] C1 C2.
        -- destruct C1 as (c1 & -> & <- & _), C2 as (c2 & E & <- & _). congruence.
        -- apply (Hres o2 n r id' id H2 C2). apply L. left. exact C1.
        -- symmetry. apply (Hres o1 n r id id' H1 C1). apply L. left. exact C2.
        -- exact (Hnc o1 o2 n r id id' H1 H2 C1 C2).
      * intros o1 n r id id' [<-|H1] C1 R1; [exact (Hc n r id id' C1 R1)|].
        exact (Hres o1 n r id id' H1 C1 (Pst n r id' R1)).
    + intros (Ha & Hnc & Hres). apply Forall_cons_iff in Ha. destruct Ha as [Ha Hb].
      assert (Ho : out = Ok tt).
      { apply A. split; [exact Ha|]. intros n r id id' C R. exact (Hres o n r id id' (or_introl eq_refl) C R). }
      split; [exact Ho|]. apply IH. split; [exact Hb|]. split.
      * intros o1 o2 n r id id' H1 H2. apply Hnc; right; assumption.
      * intros o1 n r id id' H1 C1 R1. apply (L Ho) in R1. destruct R1 as [C|[R _]].
        -- exact (Hnc o o1 n r id' id (or_introl eq_refl) (or_intror H1) C C1).
        -- exact (Hres o1 n r id id' (or_intror H1) C1 R).
Qed.

Lemma run_ok_lookup os : forall st, all_ok (snd (run_adds st os)) -> forall n r id,
  resolves (fst (run_adds st os)) n r id <->
    (exists o, In o os /\ claims o n r id) \/ resolves st n r id.
Proof.
  induction os as [|o os IH]; intros st Hok n r id.
  - simpl. split; [intros H; right; exact H|intros [(o & [] & _)|H]; exact H].
  - simpl in Hok |- *. pose proof (add_ok_lookup st o) as L. pose proof (add_persist st o) as Pst.
    destruct (add_element st o) as [st1 out]. simpl in L, Pst.
    specialize (IH st1). pose proof (run_persist os st1) as Prun.
    destruct (run_adds st1 os) as [st2 outs]. simpl in *.
    apply Forall_cons_iff in Hok. destruct Hok as [Ho Hos]. split.
    + intros R. apply (IH Hos) in R. destruct R as [(o1 & H1 & C1)|R]; [left; exists o1; auto|].
      apply (L Ho) in R. destruct R as [C|[R _]]; [left; exists o; auto|right; exact R].
    + intros [(o1 & [<-|H1] & C1)|R].
      * apply Prun, (L Ho). left. exact C1.
      * apply (IH Hos). left. exists o1. auto.
      * apply Prun, Pst, R.
Qed.

Lemma run_order_independent os os' : (forall o, In o os <-> In o os') ->
  all_ok (snd (run_adds empty_registry os)) ->
  all_ok (snd (run_adds empty_registry os')) /\
  forall n r id, resolves (fst (run_adds empty_registry os)) n r id <->
                 resolves (fst (run_adds empty_registry os')) n r id.
Proof.
  intros Hp Hok. assert (Hok' : all_ok (snd (run_adds empty_registry os'))).
  { apply run_ok in Hok. destruct Hok as (Ha & Hnc & _). apply run_ok. split.
    - rewrite Forall_forall in *. intros o Ho. apply Ha, Hp, Ho.
    - split; [intros o o' n r id id' H1 H2; apply Hnc; apply Hp; assumption|].
      intros o n r id id' _ _ (c & E & _). discriminate. }
  split; [exact Hok'|]. intros n r id. rewrite !run_ok_lookup by assumption.
  split; (intros [(o & Ho & C)|R]; [left; exists o; split; [apply Hp; exact Ho|exact C]|right; exact R]).
Qed.

(** * create_element *)
(** The bound that applies on a cell, if any. *)
Definition bound_on (b : bound) (cell : string) : option Z :=
  match b with NoBound => None | Const z => Some z | Table t => assoc cell t end.

Lemma order_is_allowed_spec c cell order : order_is_allowed c cell order = true <->
  (forall lo, bound_on (c_min c) cell = Some lo -> (lo <= order)%Z) /\
  (forall hi, bound_on (c_max c) cell = Some hi -> (order <= hi)%Z).
Proof.
  assert (L : forall b, (match b with NoBound => true
      | Table t => match assoc cell t with Some b => negb (Z.ltb order b) | None => true end
      | Const b => negb (Z.ltb order b) end = true <->
      forall lo, bound_on b cell = Some lo -> (lo <= order)%Z)).
  { intros [|z|t]; simpl.
    - split; [intros _ lo E; discriminate|reflexivity].
    - destruct (Z.ltb_spec order z); simpl; split; try discriminate; intros Hx.
      + specialize (Hx z eq_refl). lia.
      + intros lo E. injection E as <-. lia.
      + reflexivity.
    - destruct (assoc cell t) as [z|]; [|split; [intros _ lo E; discriminate|reflexivity]].
      destruct (Z.ltb_spec order z); simpl; split; try discriminate; intros Hx.
      + specialize (Hx z eq_refl). lia.
      + intros lo E. injection E as <-. lia.
      + reflexivity. }
  assert (U : forall b, (match b with NoBound => true
      | Table t => match assoc cell t with Some b => negb (Z.ltb b order) | None => true end
      | Const b => negb (Z.ltb b order) end = true <->
      forall hi, bound_on b cell = Some hi -> (order <= hi)%Z)).
  { intros [|z|t]; simpl.
    - split; [intros _ lo E; discriminate|reflexivity].
    - destruct (Z.ltb_spec z order); simpl; split; try discriminate; intros Hx.
      + specialize (Hx z eq_refl). lia.
      + intros lo E. injection E as <-. lia.
      + reflexivity.
    - destruct (assoc cell t) as [z|]; [|split; [intros _ lo E; discriminate|reflexivity]].
      destruct (Z.ltb_spec z order); simpl; split; try discriminate; intros Hx.
      + specialize (Hx z eq_refl). lia.
      + intros lo E. injection E as <-. lia.
      + reflexivity. }
  unfold order_is_allowed. rewrite andb_true_iff, (L (c_min c)), (U (c_max c)). reflexivity.
Qed.

Lemma create_element_ok st cell name order gdim c ref :
  create_element st cell name order gdim = Ok (c, ref, order) <->
  create_reference cell gdim = Ok ref /\ ref_tdim ref = ref_gdim ref /\
  lookup st name (ref_name ref) = Some c /\
  (forall lo, bound_on (c_min c) (ref_name ref) = Some lo -> (lo <= order)%Z) /\
  (forall hi, bound_on (c_max c) (ref_name ref) = Some hi -> (order <= hi)%Z).
Proof.
  unfold create_element, lookup. destruct (create_reference cell gdim) as [rf|e].
  2: { split; [discriminate|intros [E _]; discriminate]. }
  destruct (Nat.eqb_spec (ref_tdim rf) (ref_gdim rf)) as [Hd|Hd]; simpl.
  2: { split; [discriminate|]. intros (E & H & _). congruence. }
  destruct (r_map st name) as [inner|].
  2: { split; [discriminate|]. intros (_ & _ & E & _). discriminate. }
  destruct (inner (ref_name rf)) as [c'|] eqn:Ei.
  2: { split; [discriminate|]. intros (E & _ & E' & _). injection E as <-. congruence. }
  destruct (order_is_allowed c' (ref_name rf) order) eqn:Eo.
  - apply order_is_allowed_spec in Eo. split.
    + intros E. injection E as -> ->. split; [reflexivity|]. split; [exact Hd|]. split; [exact Ei|exact Eo].
    + intros (E & _ & E' & _). injection E as <-. congruence.
  - split; [discriminate|]. intros (E & _ & E' & H). injection E as <-.
    assert (c' = c) by congruence. subst c'. apply order_is_allowed_spec in H. congruence.
Qed.

Lemma create_element_err st cell name order gdim e :
  create_element st cell name order gdim = Err e ->
  create_reference cell gdim = Err e \/ (exists r, create_reference cell gdim = Ok r) /\ e = ValueError.
Proof.
  unfold create_element. destruct (create_reference cell gdim) as [rf|e']; [|intros E; left; congruence].
  intros E. right. split; [exists rf; reflexivity|].
  destruct (negb _); [congruence|]. destruct (r_map st name) as [i|]; [|congruence].
  destruct (i _); [|congruence]. destruct (order_is_allowed _ _ _); congruence.
Qed.
