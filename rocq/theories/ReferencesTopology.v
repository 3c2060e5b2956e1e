(** Proofs about the sub-entity tables, the z-orders and the lattices. *)
From Coq Require Import String Reals ZArith Arith Bool Lia Lra List Permutation.
From Verif Require Import Base ReferencesModel ReferencesSpec ReferencesProofs.
Import ListNotations.
Open Scope R_scope.

(** ** Exposed faces, decided over the integers *)
Fixpoint subs_from (a k : nat) : list (list nat) :=
  match k with
  | O => [[]]
  | S k' => subs_from (S a) k' ++ map (cons a) (subs_from (S a) k')
  end.
Lemma in_subs_from k : forall a S, increasing_from a S -> Forall (fun i => (i < a + k)%nat) S ->
  In S (subs_from a k).
Proof.
  induction k as [|k IH]; intros a S Hi Hf; simpl.
  - destruct S as [|b S]; [left; reflexivity|]. inversion Hf; subst. destruct Hi as [Hi _]. lia.
  - apply in_or_app. destruct S as [|b S].
    + left. apply IH; [exact I|constructor].
    + destruct Hi as [Hab Hi]. inversion Hf; subst. destruct (Nat.eq_dec a b) as [->|N].
      * right. apply in_map. apply IH; [exact Hi|]. eapply Forall_impl; [|eassumption]. intros; simpl in *; lia.
      * left. apply IH; [split; [lia|exact Hi]|]. eapply Forall_impl; [|eassumption]. intros; simpl in *; lia.
Qed.

Definition zsum (l : list Z) : Z := fold_right Z.add 0%Z l.
Definition zdot (l v : list Z) : Z := zsum (map (fun ab => (fst ab * snd ab)%Z) (combine l v)).
Definition rpts (zs : list (list Z)) : list (list R) := map (map IZR) zs.

Lemma dotR_IZR l v : dotR (map IZR l) (map IZR v) = IZR (zdot l v).
Proof.
  unfold dotR, zdot, sumR, zsum. revert v. induction l as [|a l IH]; intros [|b v]; try reflexivity.
  cbn [map combine fold_right fst snd]. rewrite IH, plus_IZR, mult_IZR. reflexivity.
Qed.
Lemma nth_rpts zs k : nth k (rpts zs) [] = map IZR (nth k zs []).
Proof. exact (map_nth (map IZR) zs [] k). Qed.

Definition memn (k : nat) (S : list nat) : bool := existsb (Nat.eqb k) S.
Lemma memn_iff k S : memn k S = true <-> In k S.
Proof.
  unfold memn. rewrite existsb_exists. split.
  - intros [x [Hx E]]. apply Nat.eqb_eq in E. subst. exact Hx.
  - intros H. exists k. split; [exact H|apply Nat.eqb_refl].
Qed.

(** l takes its maximum m exactly on S. *)
Definition check_l (zs : list (list Z)) (S : list nat) (l : list Z) (m : Z) : bool :=
  forallb (fun k => if memn k S then (zdot l (nth k zs []) =? m)%Z else (zdot l (nth k zs []) <? m)%Z)
          (range (length zs)).
Definition candidates (d : nat) : list (list Z) := product (repeat [-2; -1; 0; 1; 2]%Z d).
Definition find_exposed (zs : list (list Z)) (d : nat) (S : list nat) : bool :=
  existsb (fun l => existsb (check_l zs S l) [-4; -3; -2; -1; 0; 1; 2; 3; 4]%Z) (candidates d).
Lemma find_exposed_ok zs d S : find_exposed zs d S = true -> exposed (rpts zs) d S.
Proof.
  unfold find_exposed. rewrite existsb_exists. intros [l [Hl H]]. rewrite existsb_exists in H.
  destruct H as [m [_ H]]. exists (map IZR l), (IZR m).
  apply in_product in Hl. destruct Hl as [Hl _]. rewrite repeat_length in Hl.
  split; [rewrite map_length; exact Hl|]. intros k Hk. unfold rpts in Hk. rewrite map_length in Hk.
  unfold check_l in H. rewrite forallb_forall in H. specialize (H k (proj2 (in_range _ _) Hk)).
  rewrite nth_rpts, dotR_IZR. destruct (memn k S) eqn:E.
  - apply memn_iff in E. apply Z.eqb_eq in H. split; [intros _; rewrite H; reflexivity|intros N; contradiction].
  - apply Z.ltb_lt in H. split; [intros I; apply memn_iff in I; congruence|intros _; apply IZR_lt; exact H].
Qed.

(** v_a + v_b = v_k + v_m with a, b in S and k outside. *)
Definition find_relation (zs : list (list Z)) (S : list nat) : bool :=
  existsb (fun a => existsb (fun b => existsb (fun k => existsb (fun m =>
    negb (memn k S) &&
    (if list_eq_dec Z.eq_dec (map (fun ij => (fst ij + snd ij)%Z) (combine (nth a zs []) (nth b zs [])))
                             (map (fun ij => (fst ij + snd ij)%Z) (combine (nth k zs []) (nth m zs [])))
     then true else false)) (range (length zs))) (range (length zs))) S) S.
Lemma zdot_add l : forall v w, length v = length w ->
  zdot l (map (fun ij => (fst ij + snd ij)%Z) (combine v w)) = (zdot l v + zdot l w)%Z.
Proof.
  unfold zdot, zsum. induction l as [|a l IH]; intros v w H; [reflexivity|].
  destruct v as [|b v], w as [|c w]; try discriminate H; [reflexivity|].
  cbn [map combine fold_right fst snd]. rewrite IH by (simpl in H; lia). ring.
Qed.
Lemma dotR_add l : forall v w : list R, length v = length w ->
  dotR l (map (fun ij => fst ij + snd ij) (combine v w)) = dotR l v + dotR l w.
Proof.
  unfold dotR, sumR. induction l as [|a l IH]; intros v w H; [simpl; ring|].
  destruct v as [|b v], w as [|c w]; try discriminate H; [simpl; ring|].
  cbn [map combine fold_right fst snd]. rewrite IH by (simpl in H; lia). ring.
Qed.
Lemma map_add_IZR : forall v w, map IZR (map (fun ij => (fst ij + snd ij)%Z) (combine v w))
   = map (fun ij => fst ij + snd ij) (combine (map IZR v) (map IZR w)).
Proof.
  induction v as [|a v IH]; intros [|b w]; try reflexivity. cbn [map combine fst snd]. rewrite plus_IZR, IH. reflexivity.
Qed.
Lemma find_relation_ok zs d S : Forall (fun v => length v = d) zs -> Forall (fun k => (k < length zs)%nat) S ->
  find_relation zs S = true -> ~ exposed (rpts zs) d S.
Proof.
  intros Hd HS H (l & c & Hl & Hex). unfold find_relation in H. rewrite existsb_exists in H.
  destruct H as [a [Ha H]]. rewrite existsb_exists in H. destruct H as [b [Hb H]].
  rewrite existsb_exists in H. destruct H as [k [Hk H]]. rewrite existsb_exists in H. destruct H as [m [Hm H]].
  apply andb_prop in H. destruct H as [Hn H]. destruct (list_eq_dec _ _ _) as [E|]; [|discriminate H].
  apply in_range in Hk, Hm. rewrite Forall_forall in HS, Hd.
  assert (L : forall i, (i < length zs)%nat -> length (nth i zs []) = d) by (intros; apply Hd, nth_In; assumption).
  assert (RL : length (rpts zs) = length zs) by (unfold rpts; apply map_length).
  apply (f_equal (map IZR)) in E. rewrite !map_add_IZR in E. apply (f_equal (dotR l)) in E.
  rewrite !dotR_add in E by (rewrite !map_length, !L; try reflexivity; try assumption; apply HS; assumption).
  rewrite <- !nth_rpts in E.
  destruct (Hex a) as [A _]; [rewrite RL; apply HS; exact Ha|]. destruct (Hex b) as [B _]; [rewrite RL; apply HS; exact Hb|].
  destruct (Hex k) as [_ K]; [rewrite RL; exact Hk|]. destruct (Hex m) as [M1 M2]; [rewrite RL; exact Hm|].
  rewrite (A Ha), (B Hb) in E.
  assert (KK : dotR l (nth k (rpts zs) []) < c).
  { apply K. intros I. apply memn_iff in I. rewrite I in Hn. discriminate Hn. }
  destruct (in_dec Nat.eq_dec m S) as [I|I]; [specialize (M1 I)|specialize (M2 I)]; lra.
Qed.

Definition zverts (c : cell_type) : list (list Z) :=
  match c with
  | CPoint => [[]]
  | CInterval => [[0]; [1]]
  | CTriangle => [[0; 0]; [1; 0]; [0; 1]]
  | CTetrahedron => [[0; 0; 0]; [1; 0; 0]; [0; 1; 0]; [0; 0; 1]]
  | CQuadrilateral => [[0; 0]; [1; 0]; [0; 1]; [1; 1]]
  | CHexahedron => [[0; 0; 0]; [1; 0; 0]; [0; 1; 0]; [1; 1; 0];
                    [0; 0; 1]; [1; 0; 1]; [0; 1; 1]; [1; 1; 1]]
  | CPrism => [[0; 0; 0]; [1; 0; 0]; [0; 1; 0]; [0; 0; 1]; [1; 0; 1]; [0; 1; 1]]
  | CPyramid => [[0; 0; 0]; [1; 0; 0]; [0; 1; 0]; [1; 1; 0]; [0; 0; 1]]
  | CDualPolygon _ => []
  end%Z.
Definition is_dual (c : cell_type) : bool := match c with CDualPolygon _ => true | _ => false end.
Lemma zverts_ok c : is_dual c = false -> rpts (zverts c) = reference_vertices c.
Proof. intros H. destruct c; try reflexivity. discriminate H. Qed.

Definition mem_list (S : list nat) (t : list (list nat)) : bool :=
  if in_dec (list_eq_dec Nat.eq_dec) S t then true else false.
Definition check_table (c : cell_type) (size_ok : nat -> bool) (t : list (list nat)) : bool :=
  forallb (fun S => if size_ok (length S) then
     (if mem_list S t then find_exposed (zverts c) (tdim c) S else find_relation (zverts c) S) else true)
    (subs_from 0 (length (zverts c))).
Lemma check_table_ok c size_ok t S : is_dual c = false -> check_table c size_ok t = true ->
  sorted_subset (length (reference_vertices c)) S -> size_ok (length S) = true ->
  (In S t <-> exposed (reference_vertices c) (tdim c) S).
Proof.
  intros Hc Hck [Hi Hf] Hs. rewrite <- (zverts_ok c Hc) in *. unfold rpts in Hf. rewrite map_length in Hf.
  unfold check_table in Hck. rewrite forallb_forall in Hck.
  specialize (Hck S (in_subs_from _ 0 S Hi Hf)). rewrite Hs in Hck. unfold mem_list in Hck.
  destruct (in_dec _ S t) as [I|N].
  - split; [intros _; apply find_exposed_ok; exact Hck|intros _; exact I].
  - split; [intros I; contradiction|]. intros E. exfalso. revert E. apply find_relation_ok; try assumption.
    destruct c; try discriminate Hc; repeat constructor.
Qed.

(** Vertices, edges, faces and volumes of the default cell of each type. *)
Lemma edges_exposed c S : is_dual c = false -> sorted_subset (length (reference_vertices c)) S ->
  length S = 2%nat -> (In S (edges c) <-> exposed (reference_vertices c) (tdim c) S).
Proof.
  intros Hc HS HL. apply (check_table_ok c (Nat.eqb 2)); try assumption; [|rewrite HL; reflexivity].
  destruct c; try discriminate Hc; vm_compute; reflexivity.
Qed.
Lemma faces_exposed c S : tdim c = 3%nat -> sorted_subset (length (reference_vertices c)) S ->
  (3 <= length S < length (reference_vertices c))%nat ->
  (In S (faces c) <-> exposed (reference_vertices c) (tdim c) S).
Proof.
  intros Ht HS HL.
  assert (Hc : is_dual c = false) by (destruct c; try reflexivity; discriminate Ht).
  apply (check_table_ok c (fun k => (3 <=? k) && (k <? length (zverts c)))%nat); try assumption.
  - destruct c; try discriminate Ht; vm_compute; reflexivity.
  - rewrite <- (zverts_ok c Hc) in HL. unfold rpts in HL. rewrite map_length in HL.
    apply andb_true_intro. split; [apply Nat.leb_le|apply Nat.ltb_lt]; lia.
Qed.
Lemma vertices_exposed c k : is_dual c = false -> (k < length (reference_vertices c))%nat ->
  exposed (reference_vertices c) (tdim c) [k].
Proof.
  intros Hc Hk.
  apply (check_table_ok c (Nat.eqb 1) (map (fun i => [i]) (range (length (zverts c))))); try assumption.
  - destruct c; try discriminate Hc; vm_compute; reflexivity.
  - split; [simpl; split; [lia|exact I]|repeat constructor; exact Hk].
  - reflexivity.
  - apply in_map_iff. exists k. split; [reflexivity|]. apply in_range. rewrite <- (zverts_ok c Hc) in Hk.
    unfold rpts in Hk. rewrite map_length in Hk. exact Hk.
Qed.

(** ** The tables themselves *)
Definition vertex_count (c : cell_type) : nat := length (reference_vertices c).
Fixpoint nodupb {A} (dec : forall a b : A, {a = b} + {a <> b}) (l : list A) : bool :=
  match l with [] => true | a :: l' => (if in_dec dec a l' then false else true) && nodupb dec l' end.
Lemma nodupb_ok {A} dec (l : list A) : nodupb dec l = true -> NoDup l.
Proof.
  induction l as [|a l IH]; intros H; [constructor|]. simpl in H. apply andb_prop in H. destruct H as [H1 H2].
  constructor; [destruct (in_dec dec a l); [discriminate|assumption]|exact (IH H2)].
Qed.
Definition nodup_dec (t : list (list nat)) : bool := nodupb (list_eq_dec Nat.eq_dec) t.
Lemma nodup_dec_ok t : nodup_dec t = true -> NoDup t.
Proof. apply nodupb_ok. Qed.

Lemma length_reference_vertices_dual n : length (reference_vertices (CDualPolygon n)) = (2 * n)%nat.
Proof. cbn [reference_vertices]. rewrite (length_flat_map_const _ _ 2) by reflexivity. rewrite length_range. lia. Qed.

Lemma tables_nodup c : (match c with CDualPolygon n => (1 <= n)%nat | _ => True end) ->
  NoDup (edges c) /\ NoDup (faces c) /\ NoDup (volumes c).
Proof.
  intros Hn. destruct c; try (split; [|split]; apply nodup_dec_ok; vm_compute; reflexivity).
  cbn [edges faces volumes]. split; [|split; [repeat constructor; simpl; tauto|constructor]].
  apply NoDup_map_inj; [|apply NoDup_range]. intros x y _ _ E. injection E; auto.
Qed.
Lemma tables_sorted c : is_dual c = false ->
  Forall (fun S => sorted_subset (vertex_count c) S /\ length S = 2%nat) (edges c) /\
  Forall (fun S => sorted_subset (vertex_count c) S /\ (3 <= length S)%nat) (faces c) /\
  Forall (fun S => S = range (vertex_count c)) (volumes c).
Proof.
  intros Hc. destruct c; try discriminate Hc; unfold vertex_count; cbn [edges faces volumes reference_vertices length];
  (split; [|split]);
  repeat match goal with |- Forall _ (_ :: _) => apply Forall_cons | |- Forall _ [] => apply Forall_nil end;
  try reflexivity; (split; [split; [simpl; repeat split; lia | repeat (apply Forall_cons; [lia|]); apply Forall_nil]|simpl; lia]).
Qed.

(** Each local edge of a face is an edge of the cell. *)
Definition face_type (c : cell_type) (n : nat) : cell_type :=
  match sub_entity_types c 2 with
  | Ok (Same c') => c'
  | Ok (Each cs) => nth n cs CPoint
  | _ => CPoint
  end.
Definition cell_edge_check (c : cell_type) : bool :=
  forallb (fun n => let F := nth n (faces c) [] in
    forallb (fun e => mem_list (map (fun i => nth i F 0%nat) e) (edges c)) (edges (face_type c n)))
    (range (length (faces c))).
Lemma mem_list_iff S t : mem_list S t = true <-> In S t.
Proof. unfold mem_list. destruct (in_dec _ S t); split; try discriminate; try contradiction; auto. Qed.
Lemma face_edges_ok c n F e : is_dual c = false -> nth_error (faces c) n = Some F -> In e (edges (face_type c n)) ->
  In (map (fun i => nth i F 0%nat) e) (edges c).
Proof.
  intros Hc HF He.
  assert (H : cell_edge_check c = true) by (destruct c; try discriminate Hc; vm_compute; reflexivity).
  unfold cell_edge_check in H. rewrite forallb_forall in H.
  assert (Hn : (n < length (faces c))%nat) by (apply nth_error_Some; congruence).
  specialize (H n (proj2 (in_range _ _) Hn)). rewrite (nth_error_nth _ _ _ HF) in H. cbv zeta in H.
  rewrite forallb_forall in H. apply mem_list_iff. exact (H e He).
Qed.

(** Every face with k vertices has k edges; counts satisfy Euler's relation. *)
Lemma euler c : tdim c = 3%nat ->
  (vertex_count c + length (faces c) = length (edges c) + 2)%nat.
Proof. destruct c; intros H; try discriminate H; reflexivity. Qed.
Lemma euler2 c : tdim c = 2%nat -> vertex_count c = length (edges c).
Proof.
  destruct c; intros H; try discriminate H; try reflexivity.
  unfold vertex_count. rewrite length_reference_vertices_dual. cbn [edges]. rewrite map_length, length_range. reflexivity.
Qed.

(** ** sub_entity *)
Lemma sub_entity_ok c vs r dim n S : is_dual c = false -> make_reference c vs = Ok r -> (dim <= tdim c)%nat ->
  match sub_entities r dim with Ok t => nth_error t n = Some S | Err _ => False end ->
  exists e, sub_entity r dim n false = Ok e /\ tdim (r_type e) = dim /\
    r_vertices e = map (fun k => nth k vs []) S /\ length (r_vertices e) = vertex_count (r_type e).
Proof.
  intros Hc Hr Hd HS.
  destruct c; try discriminate Hc; repeat (destruct vs as [|? vs]; try discriminate Hr); injection Hr as <-;
  cbn [tdim] in Hd;
  (destruct dim as [|[|[|[|dim]]]]; [| | | |exfalso; lia]); try (exfalso; lia);
  cbv [sub_entities r_vertices r_type edges faces volumes length range seq map] in HS;
  repeat (destruct n as [|n]; [cbn [nth_error] in HS; try discriminate HS; injection HS as <-;
     eexists; split; [reflexivity|]; repeat split; reflexivity|]); destruct n; discriminate HS.
Qed.
Lemma sub_entity_dual m vs o r dim n S : make_reference (CDualPolygon m) (o :: vs) = Ok r -> (dim <= 1)%nat ->
  match sub_entities r dim with Ok t => nth_error t n = Some S | Err _ => False end ->
  exists e, sub_entity r dim n false = Ok e /\ tdim (r_type e) = dim /\
    r_vertices e = map (fun k => nth k vs []) S /\ length (r_vertices e) = vertex_count (r_type e).
Proof.
  intros Hr Hd HS. cbn [make_reference] in Hr. destruct (length vs =? 2 * m)%nat eqn:E; [|discriminate Hr].
  injection Hr as <-. apply Nat.eqb_eq in E. destruct dim as [|[|dim]]; [| |exfalso; lia].
  - unfold sub_entities in HS. cbn [r_vertices] in HS.
    assert (Hn : (n < length vs)%nat).
    { rewrite <- (length_range (length vs)). rewrite <- (map_length (fun i => [i])). apply nth_error_Some. congruence. }
    unfold sub_entity, sub_entities. cbn [r_type sub_entity_types rbind tdim Nat.eqb r_vertices]. unfold get at 1.
    rewrite HS. cbn [rbind].
    assert (HS' : S = [n]).
    { rewrite nth_error_map in HS. destruct (nth_error (range (length vs)) n) as [k|] eqn:EK; [|discriminate HS].
      unfold range in EK. rewrite nth_error_nth' with (d := 0%nat) in EK by (rewrite seq_length; exact Hn).
      rewrite seq_nth in EK by exact Hn. simpl in EK, HS. congruence. }
    subst S. cbn [map_r]. unfold get. rewrite (nth_error_nth' vs [] Hn). cbn [rbind rmap make_reference].
    eexists; split; [reflexivity|]. repeat split; reflexivity.
  - unfold sub_entities in HS. cbn [r_type edges] in HS.
    assert (Hn : (n < 2 * m)%nat).
    { rewrite <- (length_range (2 * m)). rewrite <- (map_length (fun i => [i; ((i + 1) mod (2 * m))%nat])). apply nth_error_Some. congruence. }
    unfold sub_entity, sub_entities. cbn [r_type sub_entity_types rbind tdim Nat.eqb r_vertices edges]. unfold get at 1.
    rewrite HS. cbn [rbind].
    assert (HS' : S = [n; ((n + 1) mod (2 * m))%nat]).
    { rewrite nth_error_map in HS. destruct (nth_error (range (2 * m)) n) as [k|] eqn:EK; [|discriminate HS].
      unfold range in EK. rewrite nth_error_nth' with (d := 0%nat) in EK by (rewrite seq_length; exact Hn).
      rewrite seq_nth in EK by exact Hn. cbn [option_map] in HS. simpl in EK. congruence. }
    subst S. set (k := ((n + 1) mod (2 * m))%nat).
    assert (Hk : (k < length vs)%nat) by (rewrite E; apply Nat.mod_upper_bound; lia).
    cbn [map_r]. unfold get. rewrite (nth_error_nth' vs [] (n := n)) by lia. cbn [rbind rmap].
    rewrite (nth_error_nth' vs [] Hk). cbn [rbind rmap make_reference].
    eexists; split; [reflexivity|]. repeat split; reflexivity.
Qed.
(** Vertex k of a dual polygon lies on exactly the two edges k-1 and k (mod 2n). *)
Lemma dual_edges_cycle m k i : (2 <= m)%nat -> (k < 2 * m)%nat -> (i < 2 * m)%nat ->
  (In k (nth i (edges (CDualPolygon m)) []) <-> i = k \/ i = ((k + (2 * m - 1)) mod (2 * m))%nat).
Proof.
  intros Hm Hk Hi. cbn [edges].
  assert (E : nth i (map (fun i => [i; ((i + 1) mod (2 * m))%nat]) (range (2 * m))) [] = [i; ((i + 1) mod (2 * m))%nat]).
  { rewrite nth_indep with (d' := (fun i => [i; ((i + 1) mod (2 * m))%nat]) 0%nat) by (rewrite map_length, length_range; exact Hi).
    rewrite (map_nth (fun i => [i; ((i + 1) mod (2 * m))%nat])). unfold range. rewrite seq_nth by exact Hi. reflexivity. }
  rewrite E. simpl In.
  assert (A : forall a, (a < 2 * m)%nat -> ((a + 1) mod (2 * m) = if a =? 2 * m - 1 then 0 else a + 1)%nat).
  { intros a Ha. destruct (a =? 2 * m - 1)%nat eqn:Q; [apply Nat.eqb_eq in Q|apply Nat.eqb_neq in Q].
    - replace (a + 1)%nat with (2 * m)%nat by lia. apply Nat.mod_same. lia.
    - apply Nat.mod_small. lia. }
  assert (B : ((k + (2 * m - 1)) mod (2 * m) = if k =? 0 then 2 * m - 1 else k - 1)%nat).
  { destruct k as [|k]; [rewrite Nat.mod_small by lia; reflexivity|]. cbn [Nat.eqb].
    replace (S k - 1)%nat with k by lia. replace (S k + (2 * m - 1))%nat with (k + 1 * (2 * m))%nat by lia. rewrite Nat.mod_add by lia.
    rewrite Nat.mod_small by lia. reflexivity. }
  replace (m + (m + 0))%nat with (2 * m)%nat by lia. rewrite A by exact Hi. rewrite B.
  destruct (Nat.eqb_spec i (2 * m - 1)), (Nat.eqb_spec k 0); split; intros H; lia.
Qed.

(** ** z-orders *)
Definition natpair_eq_dec : forall a b : nat * nat, {a = b} + {a <> b}.
Proof. decide equality; apply Nat.eq_dec. Defined.
Definition pair_nodup (l : list (nat * nat)) : bool := nodupb natpair_eq_dec l.
Lemma pair_nodup_ok l : pair_nodup l = true -> NoDup l.
Proof. apply nodupb_ok. Qed.

(** The entities of a cell: (dim, number). *)
Definition entity_of (r : reference) (dk : nat * nat) : Prop :=
  (fst dk <= tdim (r_type r))%nat /\
  match sub_entities r (fst dk) with Ok t => (snd dk < length t)%nat | Err _ => False end.
Definition lists_entities (r : reference) (z : list (list (nat * nat))) : Prop :=
  NoDup (concat z) /\ forall dk, In dk (concat z) <-> entity_of r dk.

Lemma lists_generic r : (tdim (r_type r) <= 3)%nat ->
  lists_entities r [flat_map (fun i => map (fun j => (i, j))
      (range (match sub_entity_count r i with Ok k => k | Err _ => 0%nat end))) (rev (range (tdim (r_type r) + 1)))].
Proof.
  intros H3. unfold lists_entities. simpl concat. rewrite app_nil_r. split.
  - apply NoDup_flat_map.
    + apply NoDup_rev, NoDup_range.
    + intros i _. apply NoDup_map_inj; [|apply NoDup_range]. intros x y _ _ E. congruence.
    + intros i j x _ _ Hx Hy. apply in_map_iff in Hx, Hy. destruct Hx as [a [<- _]], Hy as [b [E _]]. congruence.
  - intros [d k]. rewrite in_flat_map. unfold entity_of. cbn [fst snd]. split.
    + intros [i [Hi Hk]]. apply in_rev, in_range in Hi. apply in_map_iff in Hk. destruct Hk as [j [E Hj]].
      injection E as -> ->. apply in_range in Hj. split; [lia|]. unfold sub_entity_count in Hj.
      destruct (sub_entities r d) as [t|]; simpl in Hj; lia.
    + intros [Hd Hk]. exists d. split; [apply in_rev; rewrite rev_involutive; apply in_range; lia|].
      apply in_map. apply in_range. unfold sub_entity_count. destruct (sub_entities r d) as [t|]; [exact Hk|contradiction].
Qed.
Lemma lists_perm r z z' : Permutation (concat z) (concat z') -> lists_entities r z -> lists_entities r z'.
Proof.
  intros P [H1 H2]. split; [exact (Permutation_NoDup P H1)|]. intros dk. rewrite <- H2.
  split; apply Permutation_in; [apply Permutation_sym|]; exact P.
Qed.
Definition generic_z (r : reference) : list (list (nat * nat)) :=
  [flat_map (fun i => map (fun j => (i, j))
      (range (match sub_entity_count r i with Ok k => k | Err _ => 0%nat end))) (rev (range (tdim (r_type r) + 1)))].

Lemma nodup_same_perm (l l' : list (nat * nat)) : pair_nodup l = true -> pair_nodup l' = true ->
  forallb (fun a => if in_dec natpair_eq_dec a l then true else false) l' = true ->
  forallb (fun a => if in_dec natpair_eq_dec a l' then true else false) l = true -> Permutation l l'.
Proof.
  intros N1 N2 H1 H2. apply NoDup_Permutation; [apply pair_nodup_ok, N1|apply pair_nodup_ok, N2|].
  rewrite forallb_forall in H1, H2. intros a. split; intros Ha.
  - specialize (H2 a Ha). destruct (in_dec _ a l'); [assumption|discriminate].
  - specialize (H1 a Ha). destruct (in_dec _ a l); [assumption|discriminate].
Qed.
Lemma z_ordered_ok r : length (r_vertices r) = vertex_count (r_type r) ->
  lists_entities r (z_ordered_entities r).
Proof.
  intros Hv.
  assert (H3 : (tdim (r_type r) <= 3)%nat) by (destruct (r_type r); simpl; lia).
  apply (lists_perm r (generic_z r)); [|exact (lists_generic r H3)].
  destruct r as [c vs o ax]. cbn [r_type r_vertices] in *.
  destruct c; try apply Permutation_refl;
  unfold generic_z, sub_entity_count, sub_entities; cbn [r_type r_vertices]; rewrite Hv;
  apply nodup_same_perm; vm_compute; reflexivity.
Qed.
Ltac od := repeat match goal with
  | H : _ \/ _ |- _ => destruct H
  | H : exists _, _ |- _ => destruct H
  | H : _ /\ _ |- _ => destruct H
  | H : In _ (range _) |- _ => apply in_range in H
  | H : In _ (range2 _ _) |- _ => apply in_range2 in H
  | H : (_, _) = (_, _) |- _ => injection H; clear H; intros; subst
  | H : False |- _ => contradiction H
  end; try discriminate; try lia.
Lemma z_ordered_extra_ok r : length (r_vertices r) = vertex_count (r_type r) ->
  (match r_type r with CDualPolygon n => (1 <= n)%nat | _ => True end) ->
  lists_entities r (z_ordered_entities_extra_dim r).
Proof.
  intros Hv Hn. destruct (is_dual (r_type r)) eqn:D.
  2:{ assert (H3 : (tdim (r_type r) <= 3)%nat) by (destruct (r_type r); simpl; lia).
      destruct (r_type r) eqn:T; try discriminate D;
        try (unfold z_ordered_entities_extra_dim; rewrite T; apply z_ordered_ok; rewrite T; exact Hv);
        (apply (lists_perm r (generic_z r)); [|rewrite <- T in H3; exact (lists_generic r H3)]);
        unfold z_ordered_entities_extra_dim, generic_z, sub_entity_count, sub_entities; rewrite T, Hv;
        apply nodup_same_perm; vm_compute; reflexivity. }
  unfold z_ordered_entities_extra_dim. destruct (r_type r) as [| | | | | | | |m] eqn:T; try discriminate D.
  assert (HV : length (r_vertices r) = (2 * m)%nat) by (rewrite Hv; apply length_reference_vertices_dual).
  cbv zeta. set (n := ((m + 1) / 2 * 2)%nat).
  assert (Bn : (2 <= n <= 2 * m)%nat).
  { unfold n. pose proof (Nat.div_mod (m + 1) 2 ltac:(lia)) as DM. pose proof (Nat.mod_upper_bound (m + 1) 2 ltac:(lia)). lia. }
  clearbody n. unfold lists_entities. cbn [concat]. rewrite app_nil_r. split.
  - apply NoDup_app_intro.
    + apply NoDup_app_intro.
      * apply NoDup_map_inj; [|apply NoDup_range]. intros x y _ _ E; congruence.
      * apply NoDup_map_inj; [|apply NoDup_range2]. intros x y _ _ E; congruence.
      * intros x Hx Hy. apply in_map_iff in Hx, Hy. destruct Hx as [a [<- _]], Hy as [b [E _]]. discriminate E.
    + apply NoDup_app_intro; [repeat constructor; simpl; tauto| |].
      * apply NoDup_app_intro.
        -- apply NoDup_map_inj; [|apply NoDup_range2]. intros x y _ _ E; congruence.
        -- constructor; [|apply NoDup_map_inj; [|apply NoDup_range2]; intros x y _ _ E; congruence].
           intros H. apply in_map_iff in H. destruct H as [a [E Ha]]. apply in_range2 in Ha. injection E as ->. lia.
        -- intros x Hx [<-|Hy]; apply in_map_iff in Hx; destruct Hx as [a [E Ha]]; [discriminate E|].
           apply in_map_iff in Hy. destruct Hy as [b [E' _]]. congruence.
      * intros x [<-|[]] Hy. apply in_app_or in Hy. destruct Hy as [Hy|[Hy|Hy]]; try discriminate Hy;
          apply in_map_iff in Hy; destruct Hy as [b [E _]]; discriminate E.
    + intros x Hx Hy. apply in_app_or in Hx. apply in_app_or in Hy. destruct Hy as [[<-|[]]|Hy].
      { destruct Hx as [Hx|Hx]; apply in_map_iff in Hx; destruct Hx as [a [E _]]; discriminate E. }
      apply in_app_or in Hy. destruct Hx as [Hx|Hx]; apply in_map_iff in Hx; destruct Hx as [a [<- Ha]];
      (destruct Hy as [Hy|[Hy|Hy]];
       [apply in_map_iff in Hy; destruct Hy as [b [E Hb]] | | apply in_map_iff in Hy; destruct Hy as [b [E Hb]]]);
      try discriminate; try apply in_range in Ha; try apply in_range2 in Ha; try apply in_range2 in Hb;
      try (injection E as ->); try (injection Hy as Hy); lia.
  - intros [d k]. unfold entity_of, sub_entities. cbn [fst snd]. rewrite T. cbn [tdim edges faces volumes].
    rewrite HV. rewrite !in_app_iff. cbn [In]. rewrite !in_map_iff.
    destruct d as [|[|[|d]]]; cbn [fst snd]; rewrite ?map_length, ?length_range; cbn [length].
    + split.
      * intros H. split; [lia|]. od.
      * intros [_ H]. destruct (Nat.eq_dec k 0) as [->|]; [tauto|].
        destruct (lt_dec k n); [left; right|do 4 right]; exists k; (split; [reflexivity|apply in_range2; lia]).
    + split.
      * intros H. split; [lia|]. od.
      * intros [_ H]. destruct (lt_dec k n); [left; left|right; right; left]; exists k; (split; [reflexivity|]);
          [apply in_range|apply in_range2]; lia.
    + split.
      * intros H. split; [lia|]. od.
      * intros [_ H]. right. left. left. f_equal. lia.
    + split; [|intros [H _]; lia]. intros H. exfalso. od.
Qed.
