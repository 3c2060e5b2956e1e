(** The degrees of freedom of Q elements on default cells sit at the lattice of QProofs.lat. *)
From Coq Require Import String Arith Bool Reals Lia Lra Sorted Permutation List.
From Verif Require Import Base PolyLib PolySetsModel PolySetsProofs QuadratureModel QuadratureProofs ReferencesModel
  ReferencesSpec CiarletModel LinAlg ElementModel ElementProofs LagrangeModel UnisolvenceProofs LagrangeProofs LagrangeKey
  LagrangeUnisolvence QProofs.
Import ListNotations.
Open Scope R_scope.

(** * Consequences of the order of the lattice *)
Lemma in_ord N a : In a (ord N) <-> (a <= S N)%nat.
Proof.
  unfold ord, inner. simpl. rewrite in_map_iff. split.
  - intros [<-|[<-|(i & <- & Hi)]]; [lia|lia|]. apply in_range in Hi. lia.
  - intros H. destruct a as [|a]; [auto|]. destruct (Nat.eq_dec a N) as [->|]; [auto|]. right; right.
    exists a. split; [reflexivity|]. apply in_range. lia.
Qed.
Lemma NoDup_ord N : NoDup (ord N).
Proof.
  unfold ord, inner. constructor; [|constructor].
  - simpl. rewrite in_map_iff. intros [H|(i & H & _)]; discriminate.
  - rewrite in_map_iff. intros (i & H & Hi). apply in_range in Hi. lia.
  - apply FinFun.Injective_map_NoDup; [intros a b H; lia|apply NoDup_range].
Qed.
Lemma length_ord N : length (ord N) = (N + 2)%nat.
Proof. unfold ord, inner. simpl. rewrite map_length, length_range. lia. Qed.

Lemma in_product_ord d N m : In m (product (repeat (ord N) d)) <-> length m = d /\ Forall (fun e => (e <= S N)%nat) m.
Proof.
  rewrite in_product, repeat_length. split.
  - intros [L H]. split; [exact L|]. apply Forall_forall. intros e He.
    destruct (In_nth m e 0%nat He) as (i & Hi & <-). specialize (H i 0%nat ltac:(lia)).
    rewrite nth_repeat_lt in H by lia. apply in_ord. exact H.
  - intros [L H]. split; [exact L|]. intros i d' Hi. rewrite nth_repeat_lt by exact Hi. apply in_ord.
    rewrite Forall_forall in H. apply H. apply nth_In. lia.
Qed.
Lemma NoDup_product_ord d N : NoDup (product (repeat (ord N) d)).
Proof. apply NoDup_product. apply Forall_forall. intros l Hl. apply repeat_spec in Hl. subst. apply NoDup_ord. Qed.
Lemma length_product_ord d N : length (product (repeat (ord N) d)) = ((N + 2) ^ d)%nat.
Proof. rewrite length_product. induction d as [|d IH]; [reflexivity|]. cbn [repeat map fold_right]. rewrite IH, length_ord. reflexivity. Qed.

Lemma map_nth_range {A} (L : list A) d : map (fun p => nth p L d) (range (length L)) = L.
Proof.
  apply (nth_ext _ _ d d); [rewrite map_length, length_range; reflexivity|].
  intros i Hi. rewrite map_length, length_range in Hi. apply (nth_map_range (fun p => nth p L d)). exact Hi.
Qed.

Lemma lattice_facts d N (L : list (list nat)) perm : (1 <= d)%nat -> length L = ((N + 2) ^ d)%nat ->
  map (fun p => nth p L []) perm = product (repeat (ord N) d) ->
  Permutation perm (range (length L)) /\ NoDup L /\
  (forall m, In m L <-> length m = d /\ Forall (fun e => (e <= S N)%nat) m).
Proof.
  intros Hd HL E.
  assert (Lp : length perm = length L).
  { rewrite HL, <- length_product_ord, <- E, map_length. reflexivity. }
  assert (B : forall p, In p perm -> (p < length L)%nat).
  { intros p Hp. destruct (le_lt_dec (length L) p) as [G|G]; [|exact G]. exfalso.
    assert (M : In (nth p L []) (product (repeat (ord N) d))).
    { rewrite <- E. apply (in_map (fun p => nth p L [])). exact Hp. }
    rewrite nth_overflow in M by exact G. apply in_product_ord in M. destruct M as [M _]. simpl in M. lia. }
  assert (NP : NoDup perm). { apply (NoDup_map_inv (fun p => nth p L [])). rewrite E. apply NoDup_product_ord. }
  assert (PP : Permutation perm (range (length L))).
  { apply NoDup_Permutation_bis; [exact NP| |].
    - rewrite length_range. lia.
    - intros p Hp. apply in_range, B, Hp. }
  assert (PL : Permutation (product (repeat (ord N) d)) L).
  { rewrite <- E. apply (Permutation_trans (Permutation_map (fun p => nth p L []) PP)). rewrite map_nth_range. apply Permutation_refl. }
  split; [exact PP|]. split.
  - apply (Permutation_NoDup PL). apply NoDup_product_ord.
  - intros m. rewrite <- in_product_ord. split; apply Permutation_in; [apply Permutation_sym|]; exact PL.
Qed.

Lemma length_lat c N : tensor c -> length (lat c N) = ((N + 2) ^ tdim c)%nat.
Proof.
  intros [->|[->| ->]]; unfold lat, lat_blocks; cbn [concat]; rewrite ?app_length, ?length_line, ?length_grid, ?length_grid3;
    cbn [length tdim Nat.pow]; lia.
Qed.

Definition perm_of (c : cell_type) (N : nat) : list nat :=
  match q_perm c (S N) with Ok p => p | Err _ => range (N + 2) end.
Lemma perm_lat c N : tensor c -> map (fun p => nth p (lat c N) []) (perm_of c N) = product (repeat (ord N) (tdim c)).
Proof.
  intros [->|[->| ->]].
  - change (perm_of CInterval N) with (range (N + 2)). cbn [tdim repeat]. rewrite <- lat_interval.
    replace (N + 2)%nat with (length (lat CInterval N)) by (rewrite length_lat by (left; reflexivity); cbn [tdim Nat.pow]; lia).
    apply map_nth_range.
  - apply (q_perm_quadrilateral N). reflexivity.
  - apply (q_perm_hexahedron N). reflexivity.
Qed.

Lemma lat_facts c N : tensor c ->
  Permutation (perm_of c N) (range (length (lat c N))) /\ NoDup (lat c N) /\
  (forall m, In m (lat c N) <-> length m = tdim c /\ Forall (fun e => (e <= S N)%nat) m).
Proof.
  intros Hc. apply (lattice_facts (tdim c) N (lat c N) (perm_of c N)).
  - destruct Hc as [->|[->| ->]]; simpl; lia.
  - apply length_lat, Hc.
  - apply perm_lat, Hc.
Qed.

(** * The points *)
Definition qpoint (ent : reference) (pts : list R) (i : list nat) : pt :=
  map (fun jo => snd jo + rsum (map (fun ab => nth (fst jo) (fst ab) 0 * snd ab)
        (combine (r_axes ent) (map (fun j => nth j pts 0) (rev i))))) (enumerate (r_origin ent)).

Lemma q_place_ok pts ent i : Forall (fun a : pt => length a = length (r_origin ent)) (r_axes ent) ->
  Forall (fun a => (a < length pts)%nat) i -> q_place pts ent i = Ok (qpoint ent pts i).
Proof.
  intros HA HI. unfold q_place, qpoint. rewrite (map_r_ok (get pts) (fun j => nth j pts 0)).
  - cbn [rbind]. apply map_r_ok. intros [j o] Hj. cbn [fst snd].
    assert (Lj : (j < length (r_origin ent))%nat).
    { unfold enumerate in Hj. apply in_combine_l, in_range in Hj. exact Hj. }
    rewrite (map_r_ok _ (fun ab => nth j (fst ab) 0 * snd ab)); [reflexivity|].
    intros [a b] Hab. apply in_combine_l in Hab. rewrite Forall_forall in HA. cbn [fst snd].
    rewrite (get_nth a j 0) by (rewrite (HA a Hab); exact Lj). reflexivity.
  - intros a Ha. apply get_nth. rewrite Forall_forall in HI. apply HI. apply in_rev. exact Ha.
Qed.

Lemma good_tensor c : tensor c -> good_entities (default c) (tdim c).
Proof.
  intros [->|[->| ->]]; (split; [reflexivity|]); intros k Hk;
    (destruct k as [|[|[|[|k]]]]; [lia| | | |lia]); (split; [reflexivity|]); intros e He;
    unfold ent_count in He; cbn in He;
    repeat (destruct e as [|e]; [|try (exfalso; lia)]); try (exfalso; lia);
    (split; [reflexivity|]); (split; [reflexivity|]); (split; [reflexivity|]);
    cbn; repeat (apply Forall_cons; [reflexivity|]); apply Forall_nil.
Qed.

Definition q_closed (c : cell_type) (n : nat) (pts : list R) : list point_dof :=
  closed_dofs (default c) (tuples n) (fun k e => qpoint (ent_of (default c) k e) pts).

Lemma q_dofs_closed c n variant rule : tensor c -> (1 <= n)%nat -> get_quadrature variant (n + 1) = Ok rule ->
  q_dofs (default c) n variant = Ok (q_closed c n (fst rule)).
Proof.
  intros Hc Hn Hq. pose proof (quadrature_nodes variant n rule Hn Hq) as (Lp & _).
  unfold q_dofs. rewrite (proj2 (Nat.eqb_neq n 0)) by lia. rewrite Hq. cbn [rbind].
  pose proof (good_tensor c Hc) as G. apply (point_dofs_closed _ (tdim c)); [exact G|].
  intros k e i Hk He Hi. destruct G as [_ G]. destruct (G k Hk) as [_ G']. destruct (G' e He) as (_ & Lo & _ & Fa).
  apply q_place_ok; [rewrite Lo; exact Fa|]. apply in_tuples in Hi. destruct Hi as [_ Hi].
  apply Forall_impl with (2 := Hi). intros a Ha. rewrite Lp. lia.
Qed.

Lemma tuples_1 N : tuples (S N) 1 = map (fun i => [S i]) (range N).
Proof.
  unfold tuples. cbn [repeat]. rewrite product_1. unfold range2. replace (S N - 1)%nat with N by lia.
  unfold range. rewrite <- seq_shift, map_map. reflexivity.
Qed.
Lemma tuples_S N d : tuples (S N) (S d) = flat_map (fun i => map (cons (S i)) (tuples (S N) d)) (range N).
Proof.
  unfold tuples. cbn [repeat product].
  assert (E : range2 1 (S N) = map S (range N)).
  { unfold range2, range. replace (S N - 1)%nat with N by lia. symmetry. apply seq_shift. }
  transitivity (flat_map (fun a => map (cons a) (product (repeat (range2 1 (S N)) d))) (map S (range N))); [f_equal; exact E|].
  apply flat_map_map.
Qed.

Lemma list1_eq (a a' : R) : a = a' -> [a] = [a']. Proof. congruence. Qed.
Lemma list2_eq (a b a' b' : R) : a = a' -> b = b' -> [a; b] = [a'; b']. Proof. congruence. Qed.
Lemma list3_eq (a b c a' b' c' : R) : a = a' -> b = b' -> c = c' -> [a; b; c] = [a'; b'; c']. Proof. congruence. Qed.

Ltac pointeq :=
  cbn -[IZR qn Rplus Rmult Rminus]; rewrite ?qn_0, ?qn_n by lia;
  first [apply list1_eq | apply list2_eq | apply list3_eq]; try reflexivity; try lra.

Lemma q_closed_lat c N pts : tensor c -> nodes_ok (S N) pts ->
  map fst (q_closed c (S N) pts) = map (map (qn (S N) pts)) (lat c N).
Proof.
  intros Hc HN.
  assert (Q : forall i, (i < N)%nat -> nth (S i) pts 0 = qn (S N) pts (S i)).
  { intros i Hi. symmetry. apply (qn_inside (S N) pts (S i) HN). lia. }
  assert (T2 : tuples (S N) 2 = flat_map (fun b => map (fun a => [S b; S a]) (range N)) (range N)).
  { rewrite tuples_S, tuples_1. apply flat_map_range_ext. intros i _. rewrite map_map. reflexivity. }
  assert (T3 : tuples (S N) 3 = flat_map (fun c => flat_map (fun b => map (fun a => [S c; S b; S a]) (range N)) (range N)) (range N)).
  { rewrite tuples_S, T2. apply flat_map_range_ext. intros i _. rewrite map_flat_map. apply flat_map_range_ext.
    intros j _. rewrite map_map. reflexivity. }
  assert (CE : forall k cnt idx P, map fst (closed_entity k cnt idx P) = flat_map (fun e => map (P e) idx) (range cnt)).
  { intros k cnt idx P. unfold closed_entity. rewrite map_flat_map. apply flat_map_range_ext. intros e _. apply map_map. }
  assert (B1 : forall (P : list nat -> pt) (F : nat -> list nat), (forall i, (i < N)%nat -> P [S i] = map (qn (S N) pts) (F i)) ->
    map P (map (fun i => [S i]) (range N)) = map (map (qn (S N) pts)) (line N F)).
  { intros P F H. unfold line. rewrite !map_map. apply map_range_ext. exact H. }
  assert (B2 : forall (P : list nat -> pt) (F : nat -> nat -> list nat),
    (forall a b, (a < N)%nat -> (b < N)%nat -> P [S b; S a] = map (qn (S N) pts) (F a b)) ->
    map P (flat_map (fun b => map (fun a => [S b; S a]) (range N)) (range N)) = map (map (qn (S N) pts)) (grid N F)).
  { intros P F H. unfold grid. rewrite !map_flat_map. apply flat_map_range_ext. intros b Hb. rewrite !map_map.
    apply map_range_ext. intros a Ha. apply H; assumption. }
  assert (B3 : forall (P : list nat -> pt) (F : nat -> nat -> nat -> list nat),
    (forall a b c, (a < N)%nat -> (b < N)%nat -> (c < N)%nat -> P [S c; S b; S a] = map (qn (S N) pts) (F a b c)) ->
    map P (flat_map (fun c => flat_map (fun b => map (fun a => [S c; S b; S a]) (range N)) (range N)) (range N)) =
    map (map (qn (S N) pts)) (grid3 N F)).
  { intros P F H. unfold grid3. rewrite !map_flat_map. apply flat_map_range_ext. intros c' Hc'. rewrite !map_flat_map.
    apply flat_map_range_ext. intros b Hb. rewrite !map_map. apply map_range_ext. intros a Ha. apply H; assumption. }
  unfold q_closed, closed_dofs. rewrite !map_app, !CE, tuples_1, T2, T3. clear T2 T3 CE.
  unfold lat, lat_blocks.
  destruct Hc as [->|[->| ->]]; rewrite !concat_cons, concat_nil, !map_app.
  all: apply (f_equal2 (@app _)); [cbn -[IZR qn]; rewrite ?qn_0, ?qn_n by lia; reflexivity|].
  - change (ent_count (default CInterval) 1) with 1%nat. change (ent_count (default CInterval) 2) with 0%nat.
    change (ent_count (default CInterval) 3) with 0%nat. cbn [range seq flat_map].
    rewrite !app_nil_r. apply B1. intros i Hi. pose proof (Q i Hi). pointeq.
  - change (ent_count (default CQuadrilateral) 1) with 4%nat. change (ent_count (default CQuadrilateral) 2) with 1%nat.
    change (ent_count (default CQuadrilateral) 3) with 0%nat. unfold range at 2 4 5. cbn [seq flat_map].
    rewrite !app_nil_r, <- !app_assoc.
    repeat (apply (f_equal2 (@app _)); [apply B1; intros i Hi; pose proof (Q i Hi); pointeq|]).
    apply B2. intros a b Ha Hb; pose proof (Q a Ha); pose proof (Q b Hb); pointeq.
  - change (ent_count (default CHexahedron) 1) with 12%nat. change (ent_count (default CHexahedron) 2) with 6%nat.
    change (ent_count (default CHexahedron) 3) with 1%nat. cbn [range seq flat_map].
    rewrite !app_nil_r, <- !app_assoc.
    do 12 (apply (f_equal2 (@app _)); [apply B1; intros i Hi; pose proof (Q i Hi); pointeq|]).
    do 6 (apply (f_equal2 (@app _)); [apply B2; intros a b Ha Hb; pose proof (Q a Ha); pose proof (Q b Hb); pointeq|]).
    apply B3; intros a b c Ha Hb Hc; pose proof (Q a Ha); pose proof (Q b Hb); pose proof (Q c Hc); pointeq.
Qed.

(** * Where the points are *)
Lemma comb_ok (w : list R) (vs : list pt) (p : pt) : length w = length vs -> sumR w = 1 ->
  Forall (fun a => 0 < a) w ->
  (forall j, (j < length p)%nat -> nth j p 0 = sumR (map (fun wv => fst wv * nth j (snd wv) 0) (combine w vs))) ->
  in_interior vs p.
Proof. intros L S P C. exists w. split; [split; [exact L|split; [exact S|exact C]]|exact P]. Qed.

Ltac coords :=
  intros j Hj; cbn in Hj; repeat (destruct j as [|j]; [|try (exfalso; lia)]); try (exfalso; lia);
  unfold sumR; cbn -[IZR Rplus Rmult Rminus]; ring.
Ltac weights s := let s := eval cbv beta in s in
  apply (comb_ok s); [reflexivity|unfold sumR; simpl; ring|repeat (apply Forall_cons; [repeat apply Rmult_lt_0_compat; lra|]); apply Forall_nil|coords].

Lemma q_located c n pts p k e : tensor c -> (1 <= n)%nat -> nodes_ok n pts -> In (p, (k, e)) (q_closed c n pts) ->
  length p = tdim c /\ exists E, entity_is (default c) k e E /\ in_interior (map (fun i => nth i (r_vertices (default c)) []) E) p.
Proof.
  intros Hc Hn HN H. apply in_closed_dofs in H.
  assert (Q : forall i, (1 <= i < n)%nat -> 0 < nth i pts 0 < 1).
  { intros i Hi. destruct (qn_inside n pts i HN ltac:(lia)) as [<- B]. exact B. }
  destruct H as [(-> & H)|(Hk & He & i & Hi & ->)].
  - assert (V : exists E, entity_is (default c) 0 e E /\ E = [e]).
    { destruct Hc as [->|[->| ->]]; cbn in H; repeat (destruct e as [|e]; [eexists; split; [eexists; split; [reflexivity|reflexivity]|reflexivity]|]);
        destruct e; discriminate. }
    destruct V as (E & HE & ->).
    assert (Ep : nth e (r_vertices (default c)) [] = p) by (apply nth_error_nth; exact H). split.
    { rewrite <- Ep. assert (e < length (r_vertices (default c)))%nat by (apply nth_error_Some; congruence).
      destruct Hc as [->|[->| ->]]; cbn in *; repeat (destruct e as [|e]; [reflexivity|]); exfalso; lia. }
    exists [e]. split; [exact HE|]. cbn [map]. rewrite Ep. apply (comb_ok [1]); [reflexivity|unfold sumR; simpl; ring|repeat constructor; lra|].
    intros j Hj. unfold sumR. simpl. ring.
  - apply in_tuples in Hi. destruct Hi as [Li Fi].
    destruct k as [|[|[|[|k]]]]; [lia| | | |lia].
    + destruct i as [|a [|]]; try discriminate Li. apply Forall_cons_iff in Fi. destruct Fi as [Fa _]. pose proof (Q a Fa) as Ba.
      destruct Hc as [->|[->| ->]]; unfold ent_count in He; cbn in He;
        repeat (destruct e as [|e]; [|try (exfalso; lia)]); try (exfalso; lia);
        (split; [reflexivity|]); (eexists; split; [eexists; split; [reflexivity|reflexivity]|]);
        weights [1 - nth a pts 0; nth a pts 0].
    + destruct i as [|a [|b [|]]]; try discriminate Li. apply Forall_cons_iff in Fi. destruct Fi as [Fa Fi].
      apply Forall_cons_iff in Fi. destruct Fi as [Fb _]. pose proof (Q a Fa) as Ba. pose proof (Q b Fb) as Bb.
      destruct Hc as [->|[->| ->]]; unfold ent_count in He; cbn in He;
        repeat (destruct e as [|e]; [|try (exfalso; lia)]); try (exfalso; lia);
        (split; [reflexivity|]); (eexists; split; [eexists; split; [reflexivity|reflexivity]|]);
        let t := constr:(nth a pts 0) in let s := constr:(nth b pts 0) in weights [(1 - s) * (1 - t); s * (1 - t); (1 - s) * t; s * t].
    + destruct i as [|a [|b [|c0 [|]]]]; try discriminate Li. apply Forall_cons_iff in Fi. destruct Fi as [Fa Fi].
      apply Forall_cons_iff in Fi. destruct Fi as [Fb Fi]. apply Forall_cons_iff in Fi. destruct Fi as [Fc _].
      pose proof (Q a Fa) as Ba. pose proof (Q b Fb) as Bb. pose proof (Q c0 Fc) as Bc.
      destruct Hc as [->|[->| ->]]; unfold ent_count in He; cbn in He;
        repeat (destruct e as [|e]; [|try (exfalso; lia)]); try (exfalso; lia);
        (split; [reflexivity|]); (eexists; split; [eexists; split; [reflexivity|reflexivity]|]);
        let u := constr:(nth a pts 0) in let t := constr:(nth b pts 0) in let s := constr:(nth c0 pts 0) in weights [(1 - s) * (1 - t) * (1 - u); s * (1 - t) * (1 - u); (1 - s) * t * (1 - u); s * t * (1 - u);
                 (1 - s) * (1 - t) * u; s * (1 - t) * u; (1 - s) * t * u; s * t * u].
Qed.

(** * Unisolvence *)
Lemma q_closed_zero c N pts f : tensor c -> nodes_ok (S N) pts ->
  poly_space (fun m => length m = tdim c /\ Forall (fun e => (e <= S N)%nat) m) f ->
  (forall p ke, In (p, ke) (q_closed c (S N) pts) -> f (env_of p) = 0) -> forall v, f v = 0.
Proof.
  intros Hc HN Hf Z. apply (tensor_lattice_zero (qn (S N) pts) (tdim c) (S N)); [apply qn_distinct; [lia|exact HN]|exact Hf|].
  intros m Lm Fm. assert (I : In (map (qn (S N) pts) m) (map fst (q_closed c (S N) pts))).
  { rewrite q_closed_lat by assumption. apply in_map. apply lat_facts; [exact Hc|]. split; assumption. }
  apply in_map_iff in I. destruct I as ([p ke] & E & I). cbn [fst] in E. rewrite <- E. exact (Z p ke I).
Qed.

Lemma q_closed_points c N pts : tensor c -> nodes_ok (S N) pts ->
  NoDup (map fst (q_closed c (S N) pts)) /\ length (q_closed c (S N) pts) = ((N + 2) ^ tdim c)%nat.
Proof.
  intros Hc HN. assert (LL : length (q_closed c (S N) pts) = ((N + 2) ^ tdim c)%nat).
  { transitivity (length (map fst (q_closed c (S N) pts))); [symmetry; apply map_length|].
    rewrite q_closed_lat by assumption. rewrite map_length. apply length_lat, Hc. }
  split; [|exact LL]. clear LL. rewrite q_closed_lat by assumption. destruct (lat_facts c N Hc) as (_ & ND & IN).
  pose proof (qn_distinct (S N) pts ltac:(lia) HN) as D.
  assert (INJ : forall m m', In m (lat c N) -> In m' (lat c N) -> map (qn (S N) pts) m = map (qn (S N) pts) m' -> m = m').
  { intros m m' Hm Hm'. apply IN in Hm, Hm'. destruct Hm as [_ Fm]. destruct Hm' as [_ Fm']. revert m' Fm'.
    induction Fm as [|a m Ha Fm IH]; intros [|b m'] Fm' E; try discriminate; [reflexivity|].
    simpl in E. injection E as E1 E2. apply Forall_cons_iff in Fm'. destruct Fm' as [Hb Fm'].
    f_equal; [|apply IH; assumption].
    destruct (lt_eq_lt_dec a b) as [[L|L]|L]; [exfalso; apply (D a b); [lia|exact E1]|exact L|exfalso; apply (D b a); [lia|symmetry; exact E1]]. }
  clear IN. revert INJ. induction ND as [|m l Hm ND IH]; intros INJ; simpl; constructor.
  - rewrite in_map_iff. intros (m' & E & H'). apply Hm. rewrite (INJ m m'); [exact H'|left; reflexivity|right; exact H'|symmetry; exact E].
  - apply IH. intros. apply INJ; try (right; assumption); assumption.
Qed.

(** * The tensor products *)
Lemma product_2 {A B} (f g : A -> B) (l : list A) d : product [map f l; map g l] =
  map (fun m => [f (nth 0 m d); g (nth 1 m d)]) (product [l; l]).
Proof.
  cbn [product]. rewrite flat_map_map, map_flat_map. apply flat_map_ext_in. intros a _.
  change (flat_map (fun a0 : B => map (cons a0) [[]]) (map g l)) with (product [map g l]).
  change (flat_map (fun a0 : A => map (cons a0) [[]]) l) with (product [l]). rewrite !product_1, !map_map. reflexivity.
Qed.
Lemma product_3 {A B} (f g h : A -> B) (l : list A) d : product [map f l; map g l; map h l] =
  map (fun m => [f (nth 0 m d); g (nth 1 m d); h (nth 2 m d)]) (product [l; l; l]).
Proof.
  change (product [map f l; map g l; map h l]) with (flat_map (fun a => map (cons a) (product [map g l; map h l])) (map f l)).
  change (product [l; l; l]) with (flat_map (fun a => map (cons a) (product [l; l])) l).
  rewrite flat_map_map, map_flat_map. apply flat_map_ext_in. intros a _. rewrite (product_2 g h l d), !map_map. reflexivity.
Qed.

Lemma scatter_ok (perm : list nat) (G : nat -> fn point) k : Permutation perm (range k) ->
  scatter perm (map G perm) = Ok (map G (range k)).
Proof.
  intros P. assert (ND : NoDup perm) by (apply (Permutation_NoDup (Permutation_sym P)); apply NoDup_range).
  unfold scatter.
  assert (C : combine perm (map G perm) = map (fun p => (p, G p)) perm).
  { clear. induction perm; simpl; congruence. }
  rewrite C, map_map, map_id, nodup_fixed_point by exact ND.
  rewrite (Permutation_length P), length_range. apply map_r_ok. intros i Hi.
  destruct (find (fun kv => (fst kv =? i)%nat) (rev (map (fun p => (p, G p)) perm))) as [kv|] eqn:F.
  - apply find_some in F. destruct F as [F1 F2]. apply Nat.eqb_eq in F2. apply in_rev, in_map_iff in F1.
    destruct F1 as (p & <- & _). cbn in *. subst. reflexivity.
  - exfalso. pose proof (find_none _ _ F (i, G i)) as X. cbn in X. rewrite Nat.eqb_refl in X.
    discriminate X. apply -> in_rev. apply (in_map (fun p => (p, G p))). apply (Permutation_in _ (Permutation_sym P)). exact Hi.
Qed.

(** the tensor product of the one-dimensional functions psi with the indices m *)
Fixpoint tens (psi : nat -> fn point) (i : nat) (m : list nat) (v : point) : R :=
  match m with
  | [] => 1
  | a :: m' => psi a (fun _ => v i) * tens psi (S i) m' v
  end.

Lemma tensor_products_lat c N psi : tensor c ->
  exists T : list nat -> fn point, tensor_products (repeat (map psi (ord N)) (tdim c)) = map T (product (repeat (ord N) (tdim c))) /\ forall m v, length m = tdim c -> T m v = tens psi 0 m v.
Proof.
  intros [->|[->| ->]]; unfold tensor_products; cbn [tdim repeat].
  - eexists. split.
    + cbn -[product ord]. rewrite map_map, product_1, product_1, !map_map. 
      instantiate (1 := fun m v => 1 * in_variable 0 (psi (nth 0 m 0%nat)) v). reflexivity.
    + intros [|a [|]] v L; try discriminate L. cbn. unfold in_variable. ring.
  - eexists. split.
    + cbn -[product ord]. rewrite !map_map. rewrite (product_2 _ _ (ord N) 0%nat), map_map. cbn [fold_left].
      instantiate (1 := fun m v => 1 * in_variable 0 (psi (nth 0 m 0%nat)) v * in_variable 1 (psi (nth 1 m 0%nat)) v). reflexivity.
    + intros [|a [|b [|]]] v L; try discriminate L. cbn. unfold in_variable. ring.
  - eexists. split.
    + cbn -[product ord]. rewrite !map_map. rewrite (product_3 _ _ _ (ord N) 0%nat), map_map. cbn [fold_left].
      instantiate (1 := fun m v => 1 * in_variable 0 (psi (nth 0 m 0%nat)) v * in_variable 1 (psi (nth 1 m 0%nat)) v * in_variable 2 (psi (nth 2 m 0%nat)) v). reflexivity.
    + intros [|a [|b [|c [|]]]] v L; try discriminate L. cbn. unfold in_variable. ring.
Qed.

Lemma tens_delta (q : nat -> R) n psi : (forall a b, (a <= n)%nat -> (b <= n)%nat -> psi a (fun _ => q b) = if (a =? b)%nat then 1 else 0) ->
  forall m m' i v, length m = length m' -> Forall (fun e => (e <= n)%nat) m -> Forall (fun e => (e <= n)%nat) m' ->
  (forall j, (j < length m)%nat -> v (i + j)%nat = q (nth j m' 0%nat)) ->
  tens psi i m v = if list_eq_dec Nat.eq_dec m m' then 1 else 0.
Proof.
  intros H m. induction m as [|a m IH]; intros [|b m'] i v L F F' V; try discriminate L.
  - simpl. destruct (list_eq_dec Nat.eq_dec [] []); [reflexivity|congruence].
  - apply Forall_cons_iff in F. destruct F as [Fa F]. apply Forall_cons_iff in F'. destruct F' as [Fb F'].
    cbn [tens]. assert (V0 : v i = q b) by (specialize (V 0%nat); rewrite Nat.add_0_r in V; apply V; simpl; lia).
    rewrite V0, H by assumption.
    rewrite (IH m' (S i) v); [|simpl in L; lia|exact F|exact F'|].
    + destruct (Nat.eqb_spec a b) as [->|N]; destruct (list_eq_dec Nat.eq_dec m m') as [->|N'];
        destruct (list_eq_dec Nat.eq_dec _ _) as [E|E]; try ring; exfalso; congruence.
    + intros j Hj. specialize (V (S j)). cbn [nth length] in V. rewrite <- V by lia. f_equal. lia.
Qed.

(** * The tensor products are in the space *)
Definition reval_from (i : nat) (p : rpoly) (v : point) : R :=
  fold_right (fun t acc => fst t * meval_from i (snd t) v + acc) 0 p.

Lemma reval_from_app i p q v : reval_from i (p ++ q) v = reval_from i p v + reval_from i q v.
Proof. induction p as [|t p IH]; simpl; [ring|]. rewrite IH. ring. Qed.

Lemma tens_poly_from n (psi : nat -> fn point) :
  (forall a, (a <= n)%nat -> poly_space (fun m => length m = 1%nat /\ (mdeg m <= n)%nat) (psi a)) ->
  forall m i, Forall (fun e => (e <= n)%nat) m ->
  exists p : rpoly, Forall (fun t => length (snd t) = length m /\ Forall (fun e => (e <= n)%nat) (snd t)) p /\
    forall v, tens psi i m v = reval_from i p v.
Proof.
  intros H m. induction m as [|a m IH]; intros i F.
  - exists [(1, [])]. split; [repeat constructor|]. intros v. simpl. ring.
  - apply Forall_cons_iff in F. destruct F as [Fa F]. destruct (IH (S i) F) as (p2 & F2 & E2).
    destruct (H a Fa) as (p1 & F1 & E1).
    exists (flat_map (fun t1 => map (fun t2 => (fst t1 * fst t2, hd 0%nat (snd t1) :: snd t2)) p2) p1). split.
    + apply Forall_forall. intros t Ht. apply in_flat_map in Ht. destruct Ht as (t1 & H1 & Ht). apply in_map_iff in Ht.
      destruct Ht as (t2 & <- & H2). rewrite Forall_forall in F1, F2. destruct (F1 t1 H1) as [L1 D1]. destruct (F2 t2 H2) as [L2 D2].
      cbn [snd]. split; [simpl; congruence|]. constructor; [|exact D2].
      destruct t1 as [u1 b1]. cbn [snd hd] in *. destruct b1 as [|e [|]]; try discriminate L1. simpl in *. lia.
    + intros v. cbn [tens]. rewrite E1, E2. clear E1 E2 IH H F2.
      induction p1 as [|[u b] p1 IH]; [simpl; ring|]. apply Forall_cons_iff in F1. destruct F1 as [[L1 D1] F1].
      cbn [flat_map]. rewrite reval_from_app, <- (IH F1).
      change (reval ((u, b) :: p1) (fun _ => v i)) with (u * meval b (fun _ => v i) + reval p1 (fun _ => v i)).
      rewrite Rmult_plus_distr_r. f_equal. cbn [fst snd] in *. destruct b as [|e [|]]; try discriminate L1. cbn [hd].
      clear. unfold meval. cbn [meval_from]. induction p2 as [|[c b] p2 IH]; simpl in *; [ring|]. rewrite <- IH. ring.
Qed.

Lemma tens_poly n (psi : nat -> fn point) m :
  (forall a, (a <= n)%nat -> poly_space (fun m => length m = 1%nat /\ (mdeg m <= n)%nat) (psi a)) ->
  Forall (fun e => (e <= n)%nat) m ->
  poly_space (fun b => length b = length m /\ Forall (fun e => (e <= n)%nat) b) (tens psi 0 m).
Proof. intros H F. destruct (tens_poly_from n psi H m 0 F) as (p & Fp & E). exists p. split; [exact Fp|exact E]. Qed.
