(** Proofs about the Q elements on default cells: the lattice of the degrees of freedom, unisolvence and the tensor
    factorisation. *)
From Coq Require Import String Arith Bool Reals Lia Lra Sorted Permutation List.
From Verif Require Import Base PolyLib PolySetsModel PolySetsProofs QuadratureModel QuadratureProofs ReferencesModel
  CiarletModel LinAlg ElementModel LagrangeModel UnisolvenceProofs LagrangeProofs LagrangeUnisolvence.
Import ListNotations.
Open Scope R_scope.

(** * The nodes on one axis *)
Definition qn (n : nat) (pts : list R) (j : nat) : R :=
  if (j =? 0)%nat then 0 else if (j =? n)%nat then 1 else nth j pts 0.

Lemma sorted_nth (l : list R) : StronglySorted Rlt l -> forall i j, (i < j < length l)%nat -> nth i l 0 < nth j l 0.
Proof.
  induction 1 as [|a l H IH F]; intros i j Hij; simpl in *; [lia|].
  destruct j as [|j]; [lia|]. destruct i as [|i].
  - rewrite Forall_forall in F. apply F. apply nth_In. lia.
  - apply IH. lia.
Qed.

Definition nodes_ok (n : nat) (pts : list R) : Prop :=
  length pts = (n + 1)%nat /\ StronglySorted Rlt pts /\ Forall (fun x => 0 <= x <= 1) pts.

Lemma qn_inside n pts j : nodes_ok n pts -> (0 < j < n)%nat -> qn n pts j = nth j pts 0 /\ 0 < qn n pts j < 1.
Proof.
  intros (L & S & F) Hj. rewrite Forall_forall in F. unfold qn.
  rewrite (proj2 (Nat.eqb_neq j 0)), (proj2 (Nat.eqb_neq j n)) by lia. split; [reflexivity|].
  pose proof (sorted_nth pts S 0 j ltac:(lia)). pose proof (sorted_nth pts S j n ltac:(lia)).
  pose proof (F (nth 0 pts 0) ltac:(apply nth_In; lia)). pose proof (F (nth n pts 0) ltac:(apply nth_In; lia)). lra.
Qed.

Lemma qn_0 n pts : qn n pts 0 = 0. Proof. reflexivity. Qed.
Lemma qn_n n pts : (1 <= n)%nat -> qn n pts n = 1.
Proof. intros H. unfold qn. rewrite (proj2 (Nat.eqb_neq n 0)), Nat.eqb_refl by lia. reflexivity. Qed.

Lemma qn_distinct n pts : (1 <= n)%nat -> nodes_ok n pts -> distinct_upto (qn n pts) n.
Proof.
  intros Hn H i j Hij. assert (G : qn n pts i < qn n pts j); [|lra].
  destruct (Nat.eq_dec i 0) as [->|Ni]; destruct (Nat.eq_dec j n) as [->|Nj].
  - rewrite qn_0, qn_n by lia. lra.
  - destruct (qn_inside n pts j H ltac:(lia)). rewrite qn_0. lra.
  - destruct (qn_inside n pts i H ltac:(lia)). rewrite qn_n by lia. lra.
  - destruct (qn_inside n pts i H ltac:(lia)) as [-> _]. destruct (qn_inside n pts j H ltac:(lia)) as [-> _].
    destruct H as (L & S & F). apply sorted_nth; [exact S|lia].
Qed.

Lemma quadrature_nodes variant n r : (1 <= n)%nat -> get_quadrature variant (n + 1) = Ok r -> nodes_ok n (fst r).
Proof.
  intros Hn. assert (X : forall r, length (fst r) = (n + 1)%nat -> proper r -> nodes_ok n (fst r)).
  { intros q L (_ & S & F & _). split; [exact L|]. split; assumption. }
  unfold get_quadrature.
  destruct (variant =? "equispaced")%string.
  { intros E. injection E as <-. apply X; [|apply equispaced_proper; lia]. unfold equispaced. simpl. rewrite map_length. apply length_range. }
  assert (LB : lobatto (n + 1) = Ok r -> nodes_ok n (fst r)).
  { intros E. apply X; [|exact (proj1 (lobatto_good _ _ E))].
    clear X. generalize dependent (n + 1)%nat. intros k E. destruct k as [|[|[|[|[|[|[|[|k]]]]]]]]; try discriminate; injection E as <-; reflexivity. }
  destruct (variant =? "lobatto")%string; [exact LB|]. destruct (variant =? "gll")%string; [exact LB|].
  destruct (variant =? "radau")%string.
  { intros E. apply X; [|exact (proj1 (radau_good _ _ E))].
    clear X LB. generalize dependent (n + 1)%nat. intros k E. destruct k as [|[|[|[|k]]]]; try discriminate; injection E as <-; reflexivity. }
  destruct (variant =? "legendre")%string; [|discriminate].
  intros E. apply X; [|exact (proj1 (legendre_good _ _ E))].
  clear X LB. generalize dependent (n + 1)%nat. intros k E. destruct k as [|[|[|[|k]]]]; try discriminate; injection E as <-; reflexivity.
Qed.

(** * The lattice index of each degree of freedom *)
Definition inner (N : nat) : list nat := map S (range N).
Definition line (N : nat) (F : nat -> list nat) : list (list nat) := map F (range N).
Definition grid (N : nat) (F : nat -> nat -> list nat) : list (list nat) :=
  flat_map (fun b => map (fun a => F a b) (range N)) (range N).
Definition grid3 (N : nat) (F : nat -> nat -> nat -> list nat) : list (list nat) :=
  flat_map (fun c => flat_map (fun b => map (fun a => F a b c) (range N)) (range N)) (range N).

Definition tensor (c : cell_type) : Prop := c = CInterval \/ c = CQuadrilateral \/ c = CHexahedron.

(** n = N + 1 *)
Definition lat_blocks (c : cell_type) (N : nat) : list (list (list nat)) :=
  let n := S N in
  match c with
  | CInterval => [[[0]; [n]]; line N (fun i => [S i])]
  | CQuadrilateral =>
      [[[0; 0]; [n; 0]; [0; n]; [n; n]];
       line N (fun i => [S i; 0]); line N (fun i => [0; S i]); line N (fun i => [n; S i]); line N (fun i => [S i; n]);
       grid N (fun a b => [S a; S b])]
  | CHexahedron =>
      [[[0; 0; 0]; [n; 0; 0]; [0; n; 0]; [n; n; 0]; [0; 0; n]; [n; 0; n]; [0; n; n]; [n; n; n]];
       line N (fun i => [S i; 0; 0]); line N (fun i => [0; S i; 0]); line N (fun i => [0; 0; S i]);
       line N (fun i => [n; S i; 0]); line N (fun i => [n; 0; S i]); line N (fun i => [S i; n; 0]);
       line N (fun i => [0; n; S i]); line N (fun i => [n; n; S i]); line N (fun i => [S i; 0; n]);
       line N (fun i => [0; S i; n]); line N (fun i => [n; S i; n]); line N (fun i => [S i; n; n]);
       grid N (fun a b => [S a; S b; 0]); grid N (fun a b => [S a; 0; S b]); grid N (fun a b => [0; S a; S b]);
       grid N (fun a b => [n; S a; S b]); grid N (fun a b => [S a; n; S b]); grid N (fun a b => [S a; S b; n]);
       grid3 N (fun a b c => [S a; S b; S c])]
  | _ => []
  end%nat.
Definition lat (c : cell_type) (N : nat) : list (list nat) := concat (lat_blocks c N).
Definition ord (N : nat) : list nat := 0%nat :: S N :: inner N.

Lemma nth_blocks {A} (bs : list (list A)) (d : A) k : forall i idx,
  idx = (list_sum (map (@length A) (firstn k bs)) + i)%nat -> (i < length (nth k bs []))%nat ->
  nth idx (concat bs) d = nth i (nth k bs []) d.
Proof.
  revert bs. induction k as [|k IH]; intros [|b bs] i idx E H; simpl in *; try lia.
  - subst. apply app_nth1. exact H.
  - subst. rewrite <- Nat.add_assoc. rewrite app_nth2_plus. apply IH; [reflexivity|exact H].
Qed.

Lemma length_line N F : length (line N F) = N. Proof. unfold line. rewrite map_length. apply length_range. Qed.
Lemma length_grid N F : length (grid N F) = (N * N)%nat.
Proof.
  unfold grid. rewrite (length_flat_map_const _ _ N), length_range; [lia|]. intros. rewrite map_length. apply length_range.
Qed.
Lemma length_grid3 N F : length (grid3 N F) = (N * (N * N))%nat.
Proof.
  unfold grid3. rewrite (length_flat_map_const _ _ (N * N)%nat), length_range; [lia|]. intros. apply (length_grid N (fun x y => F x y a)).
Qed.
Lemma nth_map_range {A} (F : nat -> A) N i d : (i < N)%nat -> nth i (map F (range N)) d = F i.
Proof.
  intros H. rewrite (nth_indep _ _ (F 0%nat)) by (rewrite map_length, length_range; exact H).
  rewrite map_nth. unfold range. rewrite seq_nth by exact H. reflexivity.
Qed.
Lemma nth_line N F i d : (i < N)%nat -> nth i (line N F) d = F i.
Proof. apply nth_map_range. Qed.
Lemma nth_flat_map_const {A B} (f : A -> list B) M (l : list A) i j a0 d : (forall a, length (f a) = M) -> (i < M)%nat -> (j < length l)%nat ->
  nth (i + M * j) (flat_map f l) d = nth i (f (nth j l a0)) d.
Proof.
  intros HM Hi. revert j. induction l as [|a l IH]; intros j Hj; simpl in *; [lia|].
  destruct j as [|j].
  - rewrite Nat.mul_0_r, Nat.add_0_r. apply app_nth1. rewrite HM. exact Hi.
  - replace (i + M * S j)%nat with (length (f a) + (i + M * j))%nat by (rewrite HM; lia). rewrite app_nth2_plus. apply IH. lia.
Qed.
Lemma nth_grid N F i j d : (i < N)%nat -> (j < N)%nat -> nth (i + N * j) (grid N F) d = F i j.
Proof.
  intros Hi Hj. unfold grid. rewrite (nth_flat_map_const _ N _ i j 0%nat); [|intros; rewrite map_length; apply length_range|exact Hi|rewrite length_range; exact Hj].
  rewrite nth_map_range by exact Hi. unfold range. rewrite seq_nth by exact Hj. reflexivity.
Qed.
Lemma nth_grid3 N F i j k d : (i < N)%nat -> (j < N)%nat -> (k < N)%nat -> nth (i + N * j + N * N * k) (grid3 N F) d = F i j k.
Proof.
  intros Hi Hj Hk. unfold grid3. assert (i + N * j < N * N)%nat by nia.
  rewrite (nth_flat_map_const _ (N * N) _ (i + N * j) k 0%nat); [|intros; apply (length_grid N (fun x y => F x y a))|exact H|rewrite length_range; exact Hk].
  replace (nth k (range N) 0%nat) with k by (unfold range; rewrite seq_nth by exact Hk; reflexivity). exact (nth_grid N (fun x y => F x y k) i j d Hi Hj).
Qed.

Lemma flat_map_map {A B C} (f : A -> B) (g : B -> list C) l : flat_map g (map f l) = flat_map (fun a => g (f a)) l.
Proof. induction l; simpl; congruence. Qed.
Lemma map_flat_map {A B C} (g : B -> C) (f : A -> list B) l : map g (flat_map f l) = flat_map (fun a => map g (f a)) l.
Proof. induction l; simpl; [reflexivity|]. rewrite map_app. congruence. Qed.
Lemma flat_map_ext_in {A B} (f g : A -> list B) l : (forall a, In a l -> f a = g a) -> flat_map f l = flat_map g l.
Proof. induction l as [|a l IH]; intros H; simpl; [reflexivity|]. rewrite H by (left; reflexivity). f_equal. apply IH. intros; apply H; right; assumption. Qed.
Lemma map_range_ext {A} (f g : nat -> A) N : (forall i, (i < N)%nat -> f i = g i) -> map f (range N) = map g (range N).
Proof. intros H. apply map_ext_in. intros a Ha. apply H, in_range, Ha. Qed.
Lemma flat_map_range_ext {A} (f g : nat -> list A) N : (forall i, (i < N)%nat -> f i = g i) -> flat_map f (range N) = flat_map g (range N).
Proof. intros H. apply flat_map_ext_in. intros a Ha. apply H, in_range, Ha. Qed.

Lemma product_1 {A} (l : list A) : product [l] = map (fun a => [a]) l.
Proof. simpl. induction l; simpl; congruence. Qed.

Ltac lens := repeat first [rewrite length_line | rewrite length_grid | rewrite length_grid3]; simpl length.
Ltac at_block k i :=
  unfold lat, lat_blocks; rewrite (nth_blocks _ [] k i);
  [cbn [nth]; first [apply nth_line; assumption | apply nth_grid; assumption | apply nth_grid3; assumption | reflexivity]
  | cbn [firstn map list_sum fold_right]; lens; simpl Nat.pow; try lia; try nia
  | cbn [nth]; lens; first [assumption | lia | nia]].

Lemma lat_interval N : lat CInterval N = product [ord N].
Proof.
  rewrite product_1. unfold ord, inner, lat, lat_blocks, line. cbn [concat app map]. rewrite app_nil_r, map_map. reflexivity.
Qed.

Lemma q_perm_quadrilateral N perm : q_perm CQuadrilateral (S N) = Ok perm ->
  map (fun p => nth p (lat CQuadrilateral N) []) perm = product [ord N; ord N].
Proof.
  unfold q_perm. cbn [Nat.eqb]. replace (S N - 1)%nat with N by lia. intros E. injection E as <-.
  change (product [ord N; ord N]) with (flat_map (fun a => map (cons a) (product [ord N])) (ord N)).
  rewrite product_1. unfold ord, inner. cbn [flat_map map]. rewrite !map_map, flat_map_map.
  repeat first [rewrite map_app | progress cbn [map app]]. rewrite !map_map, map_flat_map.
  repeat match goal with |- ?a :: _ = ?b :: _ => apply (f_equal2 (@cons _)); [reflexivity|] end.
  apply (f_equal2 (@app _)); [apply map_range_ext; intros i Hi; at_block 2%nat i|].
  repeat match goal with |- ?a :: _ = ?b :: _ => apply (f_equal2 (@cons _)); [reflexivity|] end.
  apply (f_equal2 (@app _)); [apply map_range_ext; intros i Hi; at_block 3%nat i|].
  apply flat_map_range_ext. intros i Hi. cbn [map]. rewrite !map_map.
  apply (f_equal2 (@cons _)); [at_block 1%nat i|]. apply (f_equal2 (@cons _)); [at_block 4%nat i|].
  apply map_range_ext. intros j Hj. at_block 5%nat (i + N * j)%nat.
Qed.

Lemma q_perm_hexahedron N perm : q_perm CHexahedron (S N) = Ok perm ->
  map (fun p => nth p (lat CHexahedron N) []) perm = product [ord N; ord N; ord N].
Proof.
  unfold q_perm. cbn [Nat.eqb]. replace (S N - 1)%nat with N by lia. intros E. injection E as <-.
  change (product [ord N; ord N; ord N]) with
    (flat_map (fun a => map (cons a) (flat_map (fun a => map (cons a) (product [ord N])) (ord N))) (ord N)).
  rewrite product_1. unfold ord, inner. cbn [flat_map map]. rewrite !map_map, !flat_map_map.
  repeat first [rewrite <- app_assoc | rewrite map_app | rewrite map_flat_map | rewrite map_map | progress cbn [map app]].
  repeat match goal with |- ?a :: _ = ?b :: _ => apply (f_equal2 (@cons _)); [reflexivity|] end.
  apply (f_equal2 (@app _)); [apply map_range_ext; intros i Hi; at_block 3%nat i|].
  repeat match goal with |- ?a :: _ = ?b :: _ => apply (f_equal2 (@cons _)); [reflexivity|] end.
  apply (f_equal2 (@app _)); [apply map_range_ext; intros i Hi; at_block 7%nat i|].
  apply (f_equal2 (@app _)).
  { apply flat_map_range_ext. intros i Hi. cbn [map]. rewrite !map_map.
    apply (f_equal2 (@cons _)); [at_block 2%nat i|]. apply (f_equal2 (@cons _)); [at_block 10%nat i|].
    apply map_range_ext. intros j Hj. at_block 15%nat (i + N * j)%nat. }
  repeat match goal with |- ?a :: _ = ?b :: _ => apply (f_equal2 (@cons _)); [reflexivity|] end.
  apply (f_equal2 (@app _)); [apply map_range_ext; intros i Hi; at_block 5%nat i|].
  repeat match goal with |- ?a :: _ = ?b :: _ => apply (f_equal2 (@cons _)); [reflexivity|] end.
  apply (f_equal2 (@app _)); [apply map_range_ext; intros i Hi; at_block 8%nat i|].
  apply (f_equal2 (@app _)).
  { apply flat_map_range_ext. intros i Hi. cbn [map]. rewrite !map_map.
    apply (f_equal2 (@cons _)); [at_block 4%nat i|]. apply (f_equal2 (@cons _)); [at_block 11%nat i|].
    apply map_range_ext. intros j Hj. at_block 16%nat (i + N * j)%nat. }
  apply flat_map_range_ext. intros i Hi.
  repeat first [rewrite <- app_assoc | rewrite map_app | rewrite map_flat_map | rewrite map_map | rewrite flat_map_map | progress cbn [map app]].
  apply (f_equal2 (@cons _)); [at_block 1%nat i|]. apply (f_equal2 (@cons _)); [at_block 9%nat i|].
  apply (f_equal2 (@app _)); [apply map_range_ext; intros j Hj; at_block 14%nat (i + N * j)%nat|].
  apply (f_equal2 (@cons _)); [at_block 6%nat i|]. apply (f_equal2 (@cons _)); [at_block 12%nat i|].
  apply (f_equal2 (@app _)); [apply map_range_ext; intros j Hj; at_block 17%nat (i + N * j)%nat|].
  apply flat_map_range_ext. intros j Hj.
  repeat first [rewrite <- app_assoc | rewrite map_app | rewrite map_flat_map | rewrite map_map | progress cbn [map app]].
  apply (f_equal2 (@cons _)); [at_block 13%nat (i + N * j)%nat|]. apply (f_equal2 (@cons _)); [at_block 18%nat (i + N * j)%nat|].
  apply map_range_ext. intros k Hk. at_block 19%nat (i + N * j + N * N * k)%nat.
Qed.
