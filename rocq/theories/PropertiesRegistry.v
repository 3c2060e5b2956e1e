(** Properties C28, C29: the element registry and create_element. *)
From Coq Require Import String Ascii ZArith Bool Lia List.
From Verif Require Import Base CacheModel RegistryModel RegistryProofs.
Import ListNotations.
Open Scope string_scope.

Definition P_cls := {| c_id := 0; c_names := ["Lagrange"; "P"]; c_references := ["interval"; "triangle"];
                       c_min := Const 0; c_max := NoBound |}.
Definition Bell_cls := {| c_id := 1; c_names := ["Bell"]; c_references := ["triangle"];
                          c_min := Const 5; c_max := Const 5 |}.
Definition KMV_cls := {| c_id := 2; c_names := ["KMV"]; c_references := ["triangle"; "tetrahedron"];
                         c_min := Const 1; c_max := Table [("triangle", 7%Z); ("tetrahedron", 3%Z)] |}.
(** a class whose second name is already taken *)
Definition Bad_cls := {| c_id := 3; c_names := ["new"; "P"]; c_references := ["triangle"];
                         c_min := NoBound; c_max := NoBound |}.

(** * C28.  First part: histories of successful registrations. [resolves st n r id]:
    name n on cell r is looked up to the class object id. *)
Theorem C28_registry_partial :
  (* successful histories: success and result do not depend on the order (or repetition) of the calls *)
  (forall os, all_ok (snd (run_adds empty_registry os)) -> forall n r id,
     resolves (fst (run_adds empty_registry os)) n r id <->
     exists c, In (ElementClass c) os /\ c_id c = id /\ In n (c_names c) /\ In r (c_references c)) /\
  (forall os os', (forall o, In o os <-> In o os') -> all_ok (snd (run_adds empty_registry os)) ->
     all_ok (snd (run_adds empty_registry os')) /\
     forall n r id, resolves (fst (run_adds empty_registry os)) n r id <->
                    resolves (fst (run_adds empty_registry os')) n r id) /\
  (* a second class under a taken pair fails, and no call, failing or not, ever changes a taken pair *)
  (forall st c n r id, resolves st n r id -> In n (c_names c) -> In r (c_references c) -> c_id c <> id ->
     snd (add_element st (ElementClass c)) <> Ok tt) /\
  (forall st o n r id, resolves st n r id -> resolves (fst (add_element st o)) n r id).
Proof.
  split; [|split; [exact run_order_independent|split; [|exact add_persist]]].
  - intros os Hok n r id. rewrite (run_ok_lookup os empty_registry Hok n r id). unfold claims. split.
    + intros [(o & Ho & c & -> & H)|(c & E & _)]; [exists c; exact (conj Ho H)|discriminate].
    + intros (c & Hc & H). left. exists (ElementClass c). split; [exact Hc|]. exists c. exact (conj eq_refl H).
  - intros st c n r id R Hn Hr Hne Hok. apply add_ok in Hok. destruct Hok as [_ H].
    apply Hne. symmetry. apply (H n r (c_id c) id); [|exact R]. exists c. auto.
Qed.
Print Assumptions C28_registry_partial.
Example C28_case : let os := [ElementClass P_cls; ElementClass Bell_cls; ElementClass P_cls] in
  all_ok (snd (run_adds empty_registry os)) /\ resolves (fst (run_adds empty_registry os)) "P" "interval" 0
  /\ snd (add_element (fst (run_adds empty_registry os)) (ElementClass Bad_cls)) = Err AssertionError.
Proof. split; [repeat constructor|]. split; [|reflexivity]. eexists. split; reflexivity. Qed.

(** The remaining part of the claim is false: a registration that fails because one
    of its names is taken has already registered its other names. *)
Theorem C28_failed_registration_unchanged_refuted : exists st c n r id,
  (exists os, all_ok (snd (run_adds empty_registry os)) /\ st = fst (run_adds empty_registry os)) /\
  snd (add_element st (ElementClass c)) = Err AssertionError /\
  lookup st n r = None /\ resolves (fst (add_element st (ElementClass c))) n r id.
Proof.
  exists (fst (run_adds empty_registry [ElementClass P_cls])), Bad_cls, "new", "triangle", 3.
  split; [exists [ElementClass P_cls]; split; [repeat constructor|reflexivity]|].
  split; [reflexivity|]. split; [reflexivity|]. eexists. split; reflexivity.
Qed.
Print Assumptions C28_failed_registration_unchanged_refuted.

(** * C29: [bound_on b cell] is the bound given for the cell, None if there is none. *)
Theorem C29_create_element_orders : forall st cell name order gdim,
  (forall c ref, create_element st cell name order gdim = Ok (c, ref, order) <->
     create_reference cell gdim = Ok ref /\ ref_tdim ref = ref_gdim ref /\
     lookup st name (ref_name ref) = Some c /\
     (forall lo, bound_on (c_min c) (ref_name ref) = Some lo -> (lo <= order)%Z) /\
     (forall hi, bound_on (c_max c) (ref_name ref) = Some hi -> (order <= hi)%Z)) /\
  (forall c ref o, create_element st cell name order gdim = Ok (c, ref, o) -> o = order) /\
  (forall e, create_element st cell name order gdim = Err e ->
     create_reference cell gdim = Err e \/ (exists r, create_reference cell gdim = Ok r) /\ e = ValueError).
Proof.
  intros st cell name order gdim. split; [intros c ref; exact (create_element_ok st cell name order gdim c ref)|].
  split; [|intros e; exact (create_element_err st cell name order gdim e)].
  intros c ref o. unfold create_element. destruct (create_reference cell gdim) as [rf|]; [|discriminate].
  destruct (negb _); [discriminate|]. destruct (r_map st name) as [i|]; [|discriminate].
  destruct (i _); [|discriminate]. destruct (order_is_allowed _ _ _); [|discriminate]. congruence.
Qed.
Print Assumptions C29_create_element_orders.
Example C29_case :
  let st := fst (run_adds empty_registry [ElementClass P_cls; ElementClass Bell_cls; ElementClass KMV_cls]) in
  (exists r, create_element st "triangle" "KMV" 7 None = Ok (KMV_cls, r, 7%Z)) /\
  create_element st "tetrahedron" "KMV" 7 None = Err ValueError /\
  create_element st "triangle" "P" 0 (Some 3%nat) = Err ValueError /\
  create_element st "hexahedron" "Bell" 5 None = Err ValueError /\
  create_element st "dual polygon" "P" 1 None = Err IndexError /\
  create_element st "circle" "P" 1 None = Err ValueError.
Proof. split; [eexists; reflexivity|]. repeat split. Qed.
