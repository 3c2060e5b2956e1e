(** What make_integral_moment_dofs gives for the constructors of FamiliesModel. *)
From Coq Require Import String ZArith Arith Bool Reals Lia List.
From Verif Require Import Base PolyLib PolySetsModel PolySetsProofs RTNedelecProofs QuadratureModel ReferencesModel
  ReferencesSpec ReferencesProofs MomentsModel ElementModel LagrangeModel LagrangeProofs LagrangeKey LagrangeUnisolvence
  QProofs QDofs FamiliesModel FamiliesSpec.
Import ListNotations.
Local Open Scope string_scope.
Local Open Scope nat_scope.
Local Open Scope list_scope.

(** * Lists of results *)
Lemma map_r_collect {A B} (f : A -> res (list B)) (P : B -> Prop) (l : list A) : forall ks,
  Forall2 (fun a k => exists ds, f a = Ok ds /\ length ds = k /\ Forall P ds) l ks ->
  exists ds, rmap (@concat B) (map_r f l) = Ok ds /\ length ds = list_sum ks /\ Forall P ds.
Proof.
  intros ks H. induction H as [|a k l ks (d & E & L & F) H IH].
  - exists []. split; [reflexivity|]. split; [reflexivity|constructor].
  - destruct IH as (ds & E' & L' & F'). cbn [map_r]. rewrite E. cbn [rbind].
    destruct (map_r f l) as [x|]; [|discriminate E']. cbn [rmap] in *. injection E' as E'.
    exists (d ++ concat x). split; [reflexivity|]. rewrite E'. split.
    + rewrite app_length. change (list_sum (k :: ks)) with (k + list_sum ks). lia.
    + apply Forall_app. auto.
Qed.

Lemma Forall2_repeat {A B} (R : A -> B -> Prop) a b n : (n <> 0 -> R a b) -> Forall2 R (repeat a n) (repeat b n).
Proof. intros H. induction n as [|n IH]; simpl; constructor; [apply H; lia|]. apply IH. intros _. apply H; lia. Qed.

Lemma list_sum_repeat k n : list_sum (repeat k n) = n * k.
Proof. induction n as [|n IH]; simpl; [reflexivity|]. rewrite IH. reflexivity. Qed.

(** * Sub-entities *)
Definition shape (c : cell_type) (dim : nat) : list cell_type :=
  match dim, c with
  | 1, CInterval => [CInterval]
  | 1, CTriangle => repeat CInterval 3 | 1, CQuadrilateral => repeat CInterval 4
  | 1, CTetrahedron => repeat CInterval 6 | 1, CHexahedron => repeat CInterval 12 | 1, CPrism => repeat CInterval 9
  | 2, CTriangle => [CTriangle] | 2, CQuadrilateral => [CQuadrilateral]
  | 2, CTetrahedron => repeat CTriangle 4 | 2, CHexahedron => repeat CQuadrilateral 6
  | 2, CPrism => [CTriangle; CQuadrilateral; CQuadrilateral; CQuadrilateral; CTriangle]
  | 3, CTetrahedron => [CTetrahedron] | 3, CHexahedron => [CHexahedron] | 3, CPrism => [CPrism]
  | _, _ => []
  end.
Definition known (c : cell_type) : Prop :=
  c = CInterval \/ c = CTriangle \/ c = CTetrahedron \/ c = CQuadrilateral \/ c = CHexahedron \/ c = CPrism.

Definition typed (r : reference) (dim : nat) (kinds : list cell_type) : Prop :=
  sub_entity_count r dim = Ok (length kinds) /\
  forall i c, nth_error kinds i = Some c -> exists s, sub_entity r dim i false = Ok s /\ r_type s = c /\
    length (r_vertices s) = nvert c.
Definition shaped (c : cell_type) (r : reference) : Prop :=
  known c /\ r_type r = c /\ length (r_vertices r) = nvert c /\ forall dim, 1 <= dim <= 3 -> typed r dim (shape c dim).

Ltac typed_tac :=
  split; [reflexivity|]; intros i t Hi; cbn in Hi;
  repeat (destruct i as [|i]; [injection Hi as <-; eexists; split; [reflexivity|split; reflexivity]|]);
  destruct i; discriminate Hi.

Lemma shaped_default c : known c -> shaped c (default c).
Proof.
  intros H. split; [exact H|]. destruct H as [->|[->|[->|[->|[->| ->]]]]]; (split; [reflexivity|]); (split; [reflexivity|]);
    intros dim Hd; (destruct dim as [|[|[|[|dim]]]]; [lia| | | |lia]); typed_tac.
Qed.
Lemma shaped_simplex c vs r d : simplex c -> points (nvert c) d vs -> make_reference c vs = Ok r -> shaped c r.
Proof.
  intros Hc [L F] Hr. change (nvert c) with (length (reference_vertices c)) in L.
  split; [unfold known; destruct Hc as [->|[->| ->]]; tauto|].
  destruct Hc as [->|[->| ->]]; simpl in L;
    repeat (destruct vs as [|? vs]; [discriminate L|]); (destruct vs; [|discriminate L]); injection Hr as <-;
    (split; [reflexivity|]); (split; [reflexivity|]); intros dim Hd; (destruct dim as [|[|[|[|dim]]]]; [lia| | | |lia]); typed_tac.
Qed.

Lemma shape_numbers c dim : known c -> 1 <= dim <= 3 -> nth dim (entity_numbers c) 0 = length (shape c dim).
Proof.
  intros H Hd. destruct dim as [|[|[|[|dim]]]]; try lia; destruct H as [->|[->|[->|[->|[->| ->]]]]]; reflexivity.
Qed.

(** * Moments *)
Section M.
Variable dc : cls -> cell_type -> Z -> string -> res nat.
Notation slot := (slot_dofs cls string "equispaced" cls_min_order dc).
Notation make := (make_integral_moment_dofs cls string "equispaced" cls_min_order dc).
Notation extract := (extract_moment_data cls string "equispaced").

Definition slot_res (c : cell_type) (r : reference) (dim : nat) (o : option (mval cls string)) (k : nat) : Prop :=
  exists ds, slot r (Z.of_nat dim) o = Ok ds /\ length ds = k /\ Forall (fun d => on_cell c (d_entity cls string d)) ds.

Lemma slot_none c r dim : slot_res c r dim None 0.
Proof. exists []. split; [reflexivity|]. split; [reflexivity|constructor]. Qed.

Lemma slot_above c r dim o : shaped c r -> tdim c < dim <= 3 -> slot_res c r dim o 0.
Proof.
  intros (K & T & _) H. destruct o as [o|]; [|apply slot_none].
  exists []. split; [|split; [reflexivity|constructor]]. unfold slot_dofs. rewrite T.
  unfold sub_entity_types_z.
  destruct K as [->|[->|[->|[->|[->| ->]]]]]; simpl in H; try lia;
    destruct dim as [|[|[|[|dim]]]]; try lia; reflexivity.
Qed.

(** what one entity contributes *)
Definition entity_res (md : mval cls string) (kind : cell_type) (k : nat) : Prop :=
  exists m f, extract md (cell_name kind) = Ok m /\ m_element cls string m = inl f /\
    (((m_order cls string m < Z.of_nat (min_order f))%Z /\ k = 0) \/
     ((Z.of_nat (min_order f) <= m_order cls string m)%Z /\ dc (inl f) kind (m_order cls string m) (m_kwargs cls string m) = Ok k)).

Lemma slot_some c r dim md ks : shaped c r -> 1 <= dim <= tdim c -> Forall2 (entity_res md) (shape c dim) ks ->
  slot_res c r dim (Some md) (list_sum ks).
Proof.
  intros (K & T & LV & S) Hd H.
  assert (Hd3 : 1 <= dim <= 3) by (destruct K as [->|[->|[->|[->|[->| ->]]]]]; simpl in Hd; lia).
  destruct (S dim Hd3) as [C S']. unfold slot_res, slot_dofs. rewrite T. unfold sub_entity_types_z.
  replace (Z.of_nat dim <? -4)%Z with false by (symmetry; apply Z.ltb_ge; lia).
  replace (Z.of_nat dim <? 0)%Z with false by (symmetry; apply Z.ltb_ge; lia).
  cbv iota. rewrite Nat2Z.id.
  assert (X : exists et, sub_entity_types c dim = Ok et /\ et <> NoType).
  { destruct K as [->|[->|[->|[->|[->| ->]]]]]; simpl in Hd; destruct dim as [|[|[|[|dim]]]]; try lia;
      (eexists; split; [reflexivity|discriminate]). }
  destruct X as (et & -> & Het). cbn [rbind].
  unfold sub_entity_count in C. destruct (sub_entities r dim) as [vs|] eqn:Evs; [|discriminate C]. cbn [rmap] in C.
  injection C as C.
  assert (Y : exists ds, rmap (@concat _) (map_r (entity_dofs cls string "equispaced" cls_min_order dc r (Z.of_nat dim) md)
      (range (length vs))) = Ok ds /\ length ds = list_sum ks /\ Forall (fun d => on_cell c (d_entity cls string d)) ds).
  { apply map_r_collect.
    assert (G : forall kinds off ks, Forall2 (entity_res md) kinds ks ->
       (forall i t, nth_error kinds i = Some t -> nth_error (shape c dim) (off + i) = Some t) ->
       Forall2 (fun a k => exists ds, entity_dofs cls string "equispaced" cls_min_order dc r (Z.of_nat dim) md a = Ok ds
           /\ length ds = k /\ Forall (fun d => on_cell c (d_entity cls string d)) ds) (seq off (length kinds)) ks).
    { intros kinds off ks' F. revert off. induction F as [|t k kinds ks' E F IH]; intros off N; [constructor|]. cbn [length seq].
      constructor.
      - pose proof (N 0 t eq_refl) as N0. rewrite Nat.add_0_r in N0. destruct (S' off t N0) as (s & Es & Et & _).
        destruct E as (m & f & Em & Ef & E). unfold entity_dofs. rewrite Nat2Z.id, Es. cbn [rbind]. rewrite Et, Em. cbn [rbind].
        rewrite Ef. cbn [cls_min_order rbind].
        assert (OC : on_cell c (Z.of_nat dim, off)).
        { exists dim. split; [reflexivity|]. cbn [snd]. rewrite shape_numbers by assumption. apply nth_error_Some. congruence. }
        destruct E as [[E ->]|[E E']].
        + rewrite (proj2 (Z.ltb_lt _ _) E). exists []. split; [reflexivity|]. split; [reflexivity|constructor].
        + rewrite (proj2 (Z.ltb_ge _ _) E). rewrite E'. cbn [rbind]. eexists. split; [reflexivity|].
          split; [rewrite map_length, length_range; reflexivity|]. apply Forall_forall. intros d Hd'. apply in_map_iff in Hd'.
          destruct Hd' as (x & <- & _). exact OC.
      - apply IH. intros i t' Hi. specialize (N (Datatypes.S i) t' Hi). rewrite <- N. f_equal. lia. }
    unfold range. rewrite C. apply (G (shape c dim) 0 ks H). intros i t Hi. exact Hi. }
  destruct Y as (ds & E & L & F). exists ds. split; [|split; assumption].
  replace (0 <? Z.of_nat dim)%Z with true by (symmetry; apply Z.ltb_lt; lia).
  cbn [rbind]. rewrite E. destruct et; [reflexivity|reflexivity|contradiction].
Qed.

Lemma entity_res_md fn E o mp v kind k :
  ((o < Z.of_nat (min_order E))%Z /\ k = 0) \/ ((Z.of_nat (min_order E) <= o)%Z /\ dc (inl E) kind o v = Ok k) ->
  entity_res (moment_data fn E o mp v) kind k.
Proof. intros H. exists {| m_class := inr fn; m_element := inl E; m_order := o; m_mapping := mp; m_kwargs := v |}, E.
  split; [destruct mp; reflexivity|]. split; [reflexivity|exact H]. Qed.

Lemma slot_uniform c r dim fn E o mp v t m k : shaped c r -> 1 <= dim <= tdim c -> shape c dim = repeat t m ->
  ((o < Z.of_nat (min_order E))%Z /\ k = 0) \/ ((Z.of_nat (min_order E) <= o)%Z /\ dc (inl E) t o v = Ok k) ->
  slot_res c r dim (Some (moment_data fn E o mp v)) (m * k).
Proof.
  intros S Hd Sh H. rewrite <- list_sum_repeat. apply slot_some; [exact S|exact Hd|]. rewrite Sh.
  apply Forall2_repeat. intros _. apply entity_res_md. exact H.
Qed.

Definition moments_res (c : cell_type) (x : res (list (dof cls string))) (k : nat) : Prop :=
  exists ds, rmap (map of_moment) x = Ok ds /\ length ds = k /\ Forall (fun d => on_cell c (f_entity d)) ds.

Lemma make_res c r a ks : Forall2 (fun s k => exists ds, slot r (fst s) (snd s) = Ok ds /\ length ds = k /\
    Forall (fun d => on_cell c (d_entity cls string d)) ds) (slots cls string r a) ks ->
  moments_res c (make r a) (list_sum ks).
Proof.
  intros H. unfold make_integral_moment_dofs. apply map_r_collect in H. destruct H as (ds & E & L & F).
  exists (map of_moment ds). rewrite E. split; [reflexivity|]. rewrite map_length. split; [exact L|].
  apply Forall_map. exact F.
Qed.

Lemma make_by_dimension c r e f v k1 k2 k3 :
  slot_res c r 1 e k1 -> slot_res c r 2 f k2 -> slot_res c r 3 v k3 ->
  moments_res c (make r (by_dimension e f v)) (k1 + k2 + k3).
Proof.
  intros H1 H2 H3. replace (k1 + k2 + k3) with (list_sum [0; k1; k2; k3; 0; 0; 0; 0]) by (simpl; lia).
  apply make_res. unfold slots, by_dimension. cbn [vertices edges_ faces_ volumes_ cells facets ridges peaks].
  assert (N : forall d : Z, exists ds, slot r d None = Ok ds /\ length ds = 0 /\ Forall (fun d => on_cell c (d_entity cls string d)) ds).
  { intros d. exists []. split; [reflexivity|]. split; [reflexivity|constructor]. }
  repeat (apply Forall2_cons; [cbn [fst snd]; first [apply N|assumption]|]). apply Forall2_nil.
Qed.
Lemma make_by_codimension c r f cc k1 k2 : shaped c r ->
  slot_res c r (tdim c - 1) f k1 -> slot_res c r (tdim c) cc k2 ->
  moments_res c (make r (by_codimension f cc)) (k1 + k2).
Proof.
  intros S H1 H2. replace (k1 + k2) with (list_sum [0; 0; 0; 0; 0; 0; k1; k2]) by (simpl; lia).
  apply make_res. unfold slots, by_codimension. cbn [vertices edges_ faces_ volumes_ cells facets ridges peaks].
  assert (N : forall d : Z, exists ds, slot r d None = Ok ds /\ length ds = 0 /\ Forall (fun d => on_cell c (d_entity cls string d)) ds).
  { intros d. exists []. split; [reflexivity|]. split; [reflexivity|constructor]. }
  destruct S as (K & T & _).
  assert (E : (Z.of_nat (tdim (r_type r)) - 1)%Z = Z.of_nat (tdim c - 1))
    by (rewrite T; destruct K as [->|[->|[->|[->|[->| ->]]]]]; reflexivity).
  rewrite E, T.
  repeat (apply Forall2_cons; [cbn [fst snd]; first [apply N|assumption]|]). apply Forall2_nil.
Qed.
End M.
