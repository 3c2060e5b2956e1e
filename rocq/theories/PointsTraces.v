(** Where the points are, and conformity: on default quadrilaterals, hexahedra and prisms and on all simplices. *)
From Coq Require Import String Arith Bool ZArith Reals Lia Lra List.
From Verif Require Import Base PolyLib PolySetsModel PolySetsProofs QuadratureModel QuadratureProofs ReferencesModel ReferencesSpec ReferencesProofs ReferencesGeometry CiarletModel CiarletProofs
  LinAlg ElementModel LagrangeModel UnisolvenceProofs LagrangeProofs LagrangeKey LagrangeUnisolvence PropertiesLagrange QProofs QDofs PropertiesQ PropertiesCiarlet
  FamiliesSimplex2 FamiliesPrism PointsModel PointsSpec PointsProofs PointsElements PointsPrism PointsCR.
Import ListNotations.
Open Scope R_scope.

Definition vert (r : reference) (i : nat) : pt := nth i (r_vertices r) [].
(** What the scalar degrees of freedom have to satisfy *)
Definition placed (r : reference) (d : nat) (dofs : list point_dof) : Prop :=
  forall p k e, In (p, (k, e)) dofs -> length p = d /\ exists E, entity_is r k e E /\ in_interior (map (vert r) E) p.
Definition traces (r : reference) (d : nat) (V : sfun -> Prop) (dofs : list point_dof) : Prop :=
  forall k e E f, entity_is r k e E -> V f ->
    (forall p k' e' E', In (p, (k', e')) dofs -> entity_is r k' e' E' -> incl E' E -> f (env_of p) = 0) ->
    forall p, length p = d -> in_affine_hull (map (vert r) E) p -> f (env_of p) = 0.

(** * From scalar elements to elements with several components *)
Lemma entity_is_eq r k e E E' : entity_is r k e E -> entity_is r k e E' -> E = E'.
Proof. intros (t & H1 & H2) (t' & H3 & H4). rewrite H1 in H3. injection H3 as <-. rewrite H2 in H4. injection H4 as <-. reflexivity. Qed.
Lemma dots_located r d dofs dirs poly made : placed r d dofs -> made = Ok (poly, dot_dofs dofs dirs) -> located r made.
Proof.
  intros P ->. exists poly, (dot_dofs dofs dirs). split; [reflexivity|]. intros p u k e H. unfold dot_dofs in H. apply in_flat_map in H. destruct H as ([p' [k' e']] & H1 & H2).
  apply in_map_iff in H2. destruct H2 as (u' & X & _). cbn [fst snd] in X. injection X as <- <- <- <-. destruct (P _ _ _ H1) as (_ & E & (tab & T1 & T2) & I). exists tab, E. auto.
Qed.
Lemma arranged_continuous r sigma (iota : nat -> nat) s V dofs poly made : tdim (r_type r) = s -> traces r s V dofs -> placed r s dofs ->
  forall rk, (forall i, (i < length sigma)%nat -> (nth i sigma 0 < rk)%nat) ->
  (forall k, (k < rk)%nat -> (iota k < length sigma)%nat /\ nth (iota k) sigma 0%nat = k) ->
  made = Ok (poly, dot_dofs dofs (map (fun k => unit_vec (length sigma) (iota k)) (range rk))) -> continuous r made (arranged sigma V).
Proof.
  intros Td T P rk Hs Hi ->. eexists _, _. split; [reflexivity|]. intros k e tab E f HE1 HE2 [[Wf Bf] Ef] Z c p Lp Hp. rewrite Td in Lp.
  destruct (lt_dec c (length sigma)) as [Hc|Hc]; [|apply Bf; lia].
  pose proof (Hs c Hc) as Hk. destruct (Hi _ Hk) as [H1 H2]. rewrite (Ef c (iota (nth c sigma 0%nat)) _ Hc H1 (eq_sym H2)).
  change (fun i => nth i p 0) with (env_of p).
  apply (T k e E (fun v => f (iota (nth c sigma 0%nat), v))); [exists tab; auto|apply Wf, H1| |exact Lp|exact Hp].
  intros q k' e' E' Hq (tab' & T1 & T2) I.
  refine (eq_trans (eq_sym (unit_value (length sigma) (iota (nth c sigma 0%nat)) q (k', e') f H1)) _). apply (Z q _ k' e' tab' E'); auto.
  unfold dot_dofs. apply in_flat_map. exists (q, (k', e')). split; [exact Hq|]. apply in_map_iff. exists (unit_vec (length sigma) (iota (nth c sigma 0%nat))). split; [reflexivity|].
  apply in_map_iff. exists (nth c sigma 0%nat). split; [reflexivity|]. apply in_range, Hk.
Qed.
Lemma fields_continuous r rk V dofs poly made : traces r (tdim (r_type r)) V dofs -> placed r (tdim (r_type r)) dofs -> made = Ok (poly, dot_dofs dofs (directions rk)) -> continuous r made (fields rk V).
Proof.
  intros T P E. destruct (arranged_continuous r (range rk) (fun k => k) _ V dofs poly made eq_refl T P rk) as (poly' & ds & E' & H).
  - intros i Hi. rewrite length_range in Hi. unfold range. rewrite seq_nth by exact Hi. exact Hi.
  - intros k Hk. rewrite length_range. unfold range. rewrite seq_nth by exact Hk. auto.
  - rewrite E, length_range. reflexivity.
  - exists poly', ds. split; [exact E'|]. intros k e tab E0 f H1 H2 Wf. apply (H k e tab E0 f H1 H2). apply arranged_range. exact Wf.
Qed.

(** * Lagrange elements on simplices *)
Lemma simplex_vertices c vs r : simplex c -> make_reference c vs = Ok r -> r_vertices r = vs.
Proof. intros Hc Hr. destruct Hc as [->|[->| ->]]; simpl in Hr; repeat (destruct vs as [|? vs]; try discriminate); injection Hr as <-; reflexivity. Qed.
Lemma lagrange_placed c vs r n : simplex c -> points (nvert c) (tdim c) vs -> map_det c vs <> 0 -> make_reference c vs = Ok r -> (1 <= n)%nat ->
  exists dofs, lagrange_dofs r n "equispaced" = Ok dofs /\ placed r (tdim c) dofs /\ traces r (tdim c) (P_space (tdim c) n) dofs.
Proof.
  intros Hc Hp HD Hr Hn. pose proof (simplex_vertices c vs r Hc Hr) as V. destruct (C19_lagrange_points c vs r n Hc Hp HD Hr Hn) as (dofs & HL & _ & HP & HE). exists dofs. split; [exact HL|]. split.
  - intros p k e H. split; [apply (HP p); apply (in_map fst _ _ H)|]. destruct (HE p k e H) as (E & E1 & E2). exists E. split; [exact E1|]. unfold vert. rewrite V. exact E2.
  - intros k e E f HE' Wf Z p Lp Hh. destruct (C19_lagrange_traces c vs r n k e E Hc Hp Hr Hn HE') as (dofs' & HL' & T). rewrite HL in HL'. injection HL' as <-.
    apply (T f Wf Z p Lp). unfold vert in Hh. rewrite V in Hh. exact Hh.
Qed.

(** * Retractions onto sub-entities *)
Definition aff (d : nat) (l : list R) (v : point) : R := nth 0 l 0 + sum d (fun j => nth (S j) l 0 * v j).
Lemma sumR_lin (f g : R * pt -> R) a b l : sumR (map (fun x => a * f x + b * g x) l) = a * sumR (map f l) + b * sumR (map g l).
Proof. induction l as [|x l IH]; cbn [map sumR fold_right]; [ring|]. unfold sumR in *. rewrite IH. ring. Qed.
Lemma aff_comb d l w vs p : length p = d -> affine_comb w vs p -> aff d l (env_of p) = sumR (map (fun wv => fst wv * aff d l (env_of (snd wv))) (combine w vs)).
Proof.
  intros Lp (Lw & S1 & C). unfold aff.
  assert (W : forall w0 vs0, length w0 = length vs0 -> sumR (map (fun wv : R * pt => fst wv) (combine w0 vs0)) = sumR w0).
  { clear. induction w0 as [|a w0 IH]; intros [|v vs0] L; try discriminate L; [reflexivity|]. cbn [combine map sumR fold_right fst]. unfold sumR in IH. rewrite IH by (injection L; auto). reflexivity. }
  transitivity (nth 0 l 0 * sumR w + sum d (fun j => nth (S j) l 0 * sumR (map (fun wv => fst wv * nth j (snd wv) 0) (combine w vs)))).
  { rewrite S1, Rmult_1_r. f_equal. apply sum_ext. intros j Hj. unfold env_of. rewrite (C j) by lia. reflexivity. }
  rewrite <- (W w vs Lw). unfold pt in *. generalize (combine w vs). clear. intros L. induction L as [|[a v] L IH].
  - unfold sumR. cbn [map fold_right combine]. rewrite sum_zero; [ring|intros; ring].
  - cbn [map sumR fold_right fst snd] in *. unfold sumR in *. rewrite <- IH. cbn [fst snd].
    rewrite (sum_ext d _ (fun j => a * (nth (S j) l 0 * env_of v j) + nth (S j) l 0 * fold_right Rplus 0 (map (fun wv : R * list R => fst wv * nth j (snd wv) 0) L))) by (intros j _; unfold env_of; ring).
    rewrite sum_plus, sum_scal. ring.
Qed.
Lemma sumR_pos_zero (w : list R) (x : list R) : length w = length x -> Forall (fun a => 0 < a) w -> Forall (fun a => 0 <= a) x -> sumR (map (fun wx => fst wx * snd wx) (combine w x)) = 0 -> Forall (fun a => a = 0) x.
Proof.
  revert x. induction w as [|a w IH]; intros [|b x] L Pw Px H; try discriminate L; [constructor|]. apply Forall_cons_iff in Pw, Px. destruct Pw as [Pa Pw]. destruct Px as [Pb Px].
  cbn [combine map sumR fold_right fst snd] in H. fold (sumR (map (fun wx => fst wx * snd wx) (combine w x))) in H.
  assert (N : 0 <= sumR (map (fun wx => fst wx * snd wx) (combine w x))).
  { clear -Pw Px. revert x Px. induction w as [|a w IH]; intros [|b x] Px; cbn [combine map sumR fold_right fst snd]; unfold sumR in *; cbn; try lra. apply Forall_cons_iff in Pw, Px. destruct Pw as [Pa Pw]. destruct Px as [Pb Px].
    specialize (IH Pw x Px). pose proof (Rmult_le_pos a b ltac:(lra) Pb). cbn [fst snd] in *. lra. }
  unfold sumR in *. pose proof (Rmult_le_pos a b ltac:(lra) Pb). assert (Eb : a * b = 0) by lra. apply Rmult_integral in Eb.
  constructor; [destruct Eb; lra|]. apply (IH x); auto. lra.
Qed.

Lemma retract_trace r d (V : sfun -> Prop) dofs E (T : list (list R)) (L : list (list R)) (lat : pt -> Prop) f :
  (forall f v w, V f -> (forall j, (j < d)%nat -> v j = w j) -> f v = f w) ->
  (forall f, V f -> (forall p, lat p -> f (env_of p) = 0) -> forall v, f v = 0) ->
  (forall p, lat p -> exists ke, In (p, ke) dofs) ->
  placed r d dofs ->
  (forall k e E' a, entity_is r k e E' -> In a E' -> (a < length (r_vertices r))%nat) ->
  (forall f, V f -> V (fun v => f (fun j => aff d (nth j T []) v))) ->
  (forall p, lat p -> exists p', lat p' /\ (forall j, (j < d)%nat -> aff d (nth j T []) (env_of p) = nth j p' 0) /\ Forall (fun l => aff d l (env_of p') = 0) L) ->
  (forall l, In l L -> forall a, (a < length (r_vertices r))%nat -> 0 <= aff d l (env_of (vert r a))) ->
  (forall a, (a < length (r_vertices r))%nat -> Forall (fun l => aff d l (env_of (vert r a)) = 0) L -> In a E) ->
  (forall a j, In a E -> (j < d)%nat -> aff d (nth j T []) (env_of (vert r a)) = nth j (vert r a) 0) ->
  V f -> (forall p k' e' E', In (p, (k', e')) dofs -> entity_is r k' e' E' -> incl E' E -> f (env_of p) = 0) ->
  forall p, length p = d -> in_affine_hull (map (vert r) E) p -> f (env_of p) = 0.
Proof.
  intros Loc Zero Dof Pl Tab VT LT NN Fa Fix Vf Z p Lp (w & Hw).
  assert (F0 : forall v, f (fun j => aff d (nth j T []) v) = 0).
  { apply (Zero _ (VT f Vf)). intros q Hq. destruct (LT q Hq) as (q' & Hq' & C & Lz). rewrite (Loc f _ (env_of q') Vf C).
    destruct (Dof q' Hq') as ([k e] & HI). destruct (Pl q' k e HI) as (Lq & E' & HE & (w' & Hc & Hpos)).
    apply (Z q' k e E' HI HE). intros a Ha. apply Fa; [apply (Tab k e E' a HE Ha)|]. apply Forall_forall. intros l Hl.
    rewrite Forall_forall in Lz. specialize (Lz l Hl). rewrite (aff_comb d l w' _ q' Lq Hc) in Lz.
    assert (X : Forall (fun a => a = 0) (map (fun b => aff d l (env_of (vert r b))) E')).
    { apply (sumR_pos_zero w'); [rewrite map_length; destruct Hc as (Lw & _); rewrite map_length in Lw; exact Lw|exact Hpos| |].
      - apply Forall_map, Forall_forall. intros b Hb. apply NN; [exact Hl|apply (Tab k e E' b HE Hb)].
      - rewrite <- Lz. f_equal. clear. revert E'. induction w' as [|x w' IH]; intros [|b E']; try reflexivity. cbn [map combine fst snd]. f_equal. apply IH. }
    rewrite Forall_forall in X. apply X. apply in_map_iff. exists a. auto. }
  rewrite <- (F0 (env_of p)). apply (Loc f); [exact Vf|]. intros j Hj. rewrite (aff_comb d _ w _ p Lp Hw). destruct Hw as (Lw & S1 & C). unfold env_of at 1. rewrite (C j) by lia. f_equal.
  clear -Fix Hj. revert E Fix. induction w as [|x w IH]; intros E Fix; [reflexivity|]. destruct E as [|b E]; [reflexivity|]. cbn [map combine fst snd]. f_equal.
  - rewrite Fix; [reflexivity|left; reflexivity|exact Hj].
  - apply IH. intros a j' Ha. apply Fix. right. exact Ha.
Qed.
Lemma poly_local d (ok : mono -> Prop) f v w : (forall m, ok m -> length m = d) -> poly_space ok f -> (forall j, (j < d)%nat -> v j = w j) -> f v = f w.
Proof.
  intros Len (p & Hp & H) E. rewrite !H. clear H. induction p as [|[c m] p IH]; simpl; [reflexivity|].
  apply Forall_cons_iff in Hp. destruct Hp as [L Hp]. apply Len in L. rewrite IH by exact Hp. f_equal. f_equal. unfold meval. simpl in L.
  assert (G : forall m i, (forall j, (i <= j < i + length m)%nat -> v j = w j) -> meval_from i m v = meval_from i m w).
  { clear. induction m as [|e m IH]; intros i H; simpl; [reflexivity|]. rewrite (H i) by (simpl; lia). f_equal.
    apply IH. intros j Hj. apply H. simpl. lia. }
  apply G. intros j Hj. apply E. rewrite L in Hj. lia.
Qed.

(** * Q *)
(** which coordinates are fixed on a sub-entity of a tensor product cell *)
Definition fixed (E : list nat) (j : nat) : option bool :=
  if forallb (fun a => negb (Nat.testbit a j)) E then Some false else if forallb (fun a => Nat.testbit a j) E then Some true else None.
Definition unit_row (d j : nat) : list R := 0 :: map (fun i => if (i =? j)%nat then 1 else 0) (range d).
Definition q_row (d : nat) (E : list nat) (j : nat) : list R :=
  match fixed E j with Some false => [0] | Some true => [1] | None => unit_row d j end.
Definition q_support (d : nat) (E : list nat) (j : nat) : list (list R) :=
  match fixed E j with Some false => [unit_row d j] | Some true => [1 :: map (fun i => if (i =? j)%nat then -1 else 0) (range d)] | None => [] end.
Lemma aff_const d c v : aff d [c] v = c.
Proof. unfold aff. cbn [nth]. rewrite sum_zero; [ring|]. intros j _. destruct j; cbn [nth]; ring. Qed.
Lemma aff_row d c0 c j v : (j < d)%nat -> aff d (c0 :: map (fun i => if (i =? j)%nat then c else 0) (range d)) v = c0 + c * v j.
Proof.
  intros Hj. unfold aff. cbn [nth]. f_equal. rewrite (sum_single _ _ j Hj).
  - rewrite (nth_map_range (fun i => if (i =? j)%nat then c else 0)) by exact Hj. rewrite Nat.eqb_refl. reflexivity.
  - intros i Hi N. rewrite (nth_map_range (fun i => if (i =? j)%nat then c else 0)) by exact Hi. rewrite (proj2 (Nat.eqb_neq i j) N). ring.
Qed.
Definition q_rows (d : nat) (E : list nat) : list (list R) := map (q_row d E) (range d).
Definition q_supports (d : nat) (E : list nat) : list (list R) := flat_map (q_support d E) (range d).
Lemma q_rows_value d E j v : (j < d)%nat -> aff d (nth j (q_rows d E) []) v = match fixed E j with Some false => 0 | Some true => 1 | None => v j end.
Proof.
  intros Hj. unfold q_rows. rewrite (nth_map_range (q_row d E)) by exact Hj. unfold q_row. destruct (fixed E j) as [[|]|]; [apply aff_const|apply aff_const|]. unfold unit_row. rewrite aff_row by exact Hj. ring.
Qed.
Lemma tensor_subst d n f (s : nat -> option R) : Q_space d n f -> Q_space d n (fun v => f (fun j => match s j with Some c => c | None => v j end)).
Proof.
  intros (p & Hp & H). apply (poly_space_ext _ (fun v => reval p (fun j => match s j with Some c => c | None => v j end))); [intros v; symmetry; apply H|]. clear f H.
  induction p as [|[c m] p IH]; [apply poly_space_zero|]. apply Forall_cons_iff in Hp. destruct Hp as [[L F] Hp]. cbn [snd] in L, F.
  apply (poly_space_add _ (fun v => c * meval m (fun j => match s j with Some c => c | None => v j end)) (fun v => reval p (fun j => match s j with Some c => c | None => v j end))); [|apply IH, Hp].
  apply (poly_space_scale _ c (fun v => meval m (fun j => match s j with Some c => c | None => v j end))). clear IH Hp p c.
  assert (G : forall m i, Forall (fun e => (e <= n)%nat) m -> exists a m', length m' = length m /\ Forall (fun e => (e <= n)%nat) m' /\ forall v, meval_from i m (fun j => match s j with Some c => c | None => v j end) = a * meval_from i m' v).
  { clear. induction m as [|e m IH]; intros i F; [exists 1, []; repeat split; [constructor|intros; cbn; ring]|]. apply Forall_cons_iff in F. destruct F as [Fe F].
    destruct (IH (S i) F) as (a & m' & L & F' & E). destruct (s i) as [c|] eqn:Si.
    - exists (c ^ e * a), (0%nat :: m'). split; [cbn; congruence|]. split; [constructor; [lia|exact F']|]. intros v. cbn [meval_from]. rewrite Si, E. cbn [pow]. ring.
    - exists a, (e :: m'). split; [cbn; congruence|]. split; [constructor; assumption|]. intros v. cbn [meval_from]. rewrite Si, E. ring. }
  destruct (G m 0%nat F) as (a & m' & L' & F' & E). apply (poly_space_ext _ (fun v => a * meval m' v)); [intros v; symmetry; apply E|]. apply poly_space_scale, poly_space_mono. split; [congruence|exact F'].
Qed.

Ltac each_entity k e HE :=
  let tab := fresh "tab" in let HT := fresh "HT" in let HN := fresh "HN" in
  destruct HE as (tab & HT & HN);
  repeat (destruct k as [|k]; [cbn in HT; first [discriminate HT|injection HT as <-];
    repeat (destruct e as [|e]; [cbn in HN; injection HN as <-|]); try (exfalso; cbn in HN; repeat (destruct e as [|e]; try discriminate HN); discriminate HN)|]);
  try (exfalso; cbn in HT; discriminate HT).

Lemma q_entities c k e E : tensor c -> entity_is (default c) k e E ->
  (forall a, In a E -> (a < length (r_vertices (default c)))%nat) /\
  (forall l, In l (q_supports (tdim c) E) -> forall a, (a < length (r_vertices (default c)))%nat -> 0 <= aff (tdim c) l (env_of (vert (default c) a))) /\
  (forall a, (a < length (r_vertices (default c)))%nat -> Forall (fun l => aff (tdim c) l (env_of (vert (default c) a)) = 0) (q_supports (tdim c) E) -> In a E) /\
  (forall a j, In a E -> (j < tdim c)%nat -> aff (tdim c) (nth j (q_rows (tdim c) E) []) (env_of (vert (default c) a)) = nth j (vert (default c) a) 0).
Proof.
  intros Hc HE. 
  assert (B : forall a j, (a < length (r_vertices (default c)))%nat -> (j < tdim c)%nat -> nth j (vert (default c) a) 0 = if Nat.testbit a j then 1 else 0).
  { intros a j Ha Hj. destruct Hc as [->|[->| ->]]; cbn in Ha, Hj; repeat (destruct a as [|a]; [do 3 (destruct j as [|j]; [reflexivity|]); exfalso; lia|]); exfalso; lia. }
  assert (A : (forall a, In a E -> (a < length (r_vertices (default c)))%nat) /\ (forall a, (a < length (r_vertices (default c)))%nat -> forallb (fun j => match fixed E j with Some b => eqb (Nat.testbit a j) b | None => true end) (range (tdim c)) = true -> In a E)).
  { destruct HE as (tab & HT & HN). assert (IE : In E tab) by (eapply nth_error_In; exact HN).
    assert (K : forallb (fun E => forallb (fun a => (a <? length (r_vertices (default c)))%nat) E && forallb (fun a => implb (forallb (fun j => match fixed E j with Some b => eqb (Nat.testbit a j) b | None => true end) (range (tdim c))) (existsb (Nat.eqb a) E)) (range (length (r_vertices (default c))))) tab = true).
    { destruct Hc as [->|[->| ->]]; (destruct k as [|[|[|[|k]]]]; cbn in HT; try discriminate HT; injection HT as <-; vm_compute; reflexivity). }
    rewrite forallb_forall in K. specialize (K E IE). apply andb_true_iff in K. destruct K as [K1 K2]. rewrite forallb_forall in K1, K2. split.
    - intros a Ha. apply Nat.ltb_lt, K1, Ha.
    - intros a Ha Hb. specialize (K2 a (proj2 (in_range _ a) Ha)). rewrite Hb in K2. cbn [implb] in K2. apply existsb_exists in K2. destruct K2 as (b & Ib & Eb). apply Nat.eqb_eq in Eb. congruence. }
  destruct A as [A1 A2]. split; [exact A1|]. split; [|split].
  - intros l Hl a Ha. unfold q_supports in Hl. apply in_flat_map in Hl. destruct Hl as (j & Hj & Hl). apply in_range in Hj. unfold q_support in Hl. unfold unit_row in Hl.
    destruct (fixed E j) as [[|]|]; [destruct Hl as [<-|[]]|destruct Hl as [<-|[]]|destruct Hl]; rewrite aff_row by exact Hj; unfold env_of; rewrite B by assumption; destruct (Nat.testbit a j); lra.
  - intros a Ha F. apply A2; [exact Ha|]. apply forallb_forall. intros j Hj. rewrite Forall_forall in F. destruct (fixed E j) as [b|] eqn:Fj; [|reflexivity]. pose proof (proj1 (in_range _ j) Hj) as Hj'.
    destruct b.
    + assert (X : aff (tdim c) (1 :: map (fun i => if (i =? j)%nat then -1 else 0) (range (tdim c))) (env_of (vert (default c) a)) = 0).
      { apply F. apply in_flat_map. exists j. split; [exact Hj|]. unfold q_support. rewrite Fj. left. reflexivity. }
      rewrite aff_row in X by exact Hj'. unfold env_of in X. rewrite B in X by assumption. destruct (Nat.testbit a j); [reflexivity|lra].
    + assert (X : aff (tdim c) (unit_row (tdim c) j) (env_of (vert (default c) a)) = 0).
      { apply F. apply in_flat_map. exists j. split; [exact Hj|]. unfold q_support. rewrite Fj. left. reflexivity. }
      unfold unit_row in X. rewrite aff_row in X by exact Hj'. unfold env_of in X. rewrite B in X by assumption. destruct (Nat.testbit a j); [lra|reflexivity].
  - intros a j Ha Hj. rewrite q_rows_value by exact Hj. pose proof (A1 a Ha) as Ha'. unfold fixed. destruct (forallb (fun a => negb (Nat.testbit a j)) E) eqn:F1.
    + rewrite forallb_forall in F1. specialize (F1 a Ha). rewrite B by assumption. destruct (Nat.testbit a j); [discriminate F1|reflexivity].
    + destruct (forallb (fun a => Nat.testbit a j) E) eqn:F2; [|reflexivity]. rewrite forallb_forall in F2. specialize (F2 a Ha). rewrite B, F2 by assumption. reflexivity.
Qed.

Lemma q_closed_traces c n pts : tensor c -> (1 <= n)%nat -> nodes_ok n pts -> placed (default c) (tdim c) (q_closed c n pts) /\ traces (default c) (tdim c) (Q_space (tdim c) n) (q_closed c n pts).
Proof.
  intros Hc Hn HN. assert (P : placed (default c) (tdim c) (q_closed c n pts)) by (intros p k e H; exact (q_located c n pts p k e Hc Hn HN H)). split; [exact P|].
  intros k e E f HE Wf Z. destruct (q_entities c k e E Hc HE) as (A1 & A2 & A3 & A4).
  set (lat := fun p => exists m, p = map (qn n pts) m /\ length m = tdim c /\ Forall (fun e => (e <= n)%nat) m).
  apply (retract_trace (default c) (tdim c) (Q_space (tdim c) n) (q_closed c n pts) E (q_rows (tdim c) E) (q_supports (tdim c) E) lat f); auto.
  - intros g v w Hg. apply (poly_local (tdim c) _ g v w) with (2 := Hg). tauto.
  - intros g Hg Zg. apply (tensor_lattice_zero (qn n pts) (tdim c) n); [apply qn_distinct; assumption|exact Hg|]. intros m Lm Fm. apply (Zg (map (qn n pts) m)). exists m. auto.
  - intros p (m & -> & Lm & Fm). destruct n as [|N]; [lia|]. assert (I : In (map (qn (S N) pts) m) (map fst (q_closed c (S N) pts))).
    { rewrite q_closed_lat by assumption. apply in_map. apply (proj2 (proj2 (lat_facts c N Hc))). auto. }
    apply in_map_iff in I. destruct I as ([p ke] & <- & I). exists ke. exact I.
  - intros k' e' E' a HE' Ha. exact (proj1 (q_entities c k' e' E' Hc HE') a Ha).
  - intros g Hg. eapply poly_space_ext; [|exact (tensor_subst (tdim c) n g (fun j => match fixed E j with Some false => Some 0 | Some true => Some 1 | None => None end) Hg)].
    intros v. cbn beta. apply (poly_local (tdim c) _ g) with (2 := Hg); [tauto|]. intros j Hj. rewrite q_rows_value by exact Hj. destruct (fixed E j) as [[|]|]; reflexivity.
  - intros p (m & -> & Lm & Fm).
    set (m' := map (fun j => match fixed E j with Some false => 0 | Some true => n | None => nth j m 0 end)%nat (range (tdim c))).
    assert (Nm : forall j, (j < tdim c)%nat -> nth j (map (qn n pts) m') 0 = match fixed E j with Some false => 0 | Some true => 1 | None => qn n pts (nth j m 0%nat) end).
    { intros j Hj. rewrite <- (qn_0 n pts) at 1. rewrite map_nth. unfold m'. rewrite (nth_map_range (fun j => match fixed E j with Some false => 0 | Some true => n | None => nth j m 0 end)%nat) by exact Hj.
      destruct (fixed E j) as [[|]|]; [apply qn_n, Hn|apply qn_0|reflexivity]. }
    exists (map (qn n pts) m'). split; [|split].
    + exists m'. split; [reflexivity|]. split; [unfold m'; rewrite map_length; apply length_range|]. apply Forall_forall. intros x Hx. unfold m' in Hx. apply in_map_iff in Hx. destruct Hx as (j & <- & Hj). apply in_range in Hj.
      destruct (fixed E j) as [[|]|]; [lia|lia|]. rewrite Forall_forall in Fm. apply Fm, nth_In. lia.
    + intros j Hj. rewrite q_rows_value, Nm by exact Hj. destruct (fixed E j) as [[|]|]; [reflexivity|reflexivity|]. unfold env_of. rewrite <- (qn_0 n pts) at 1. apply map_nth.
    + apply Forall_forall. intros l Hl. unfold q_supports in Hl. apply in_flat_map in Hl. destruct Hl as (j & Hj & Hl). apply in_range in Hj. unfold q_support, unit_row in Hl. specialize (Nm j Hj).
      destruct (fixed E j) as [[|]|]; [destruct Hl as [<-|[]]|destruct Hl as [<-|[]]|destruct Hl]; rewrite aff_row by exact Hj; unfold env_of; rewrite Nm; ring.
Qed.

(** * Prisms *)
Lemma frac_inside n a : (1 <= a < n)%nat -> 0 < frac n a < 1.
Proof. intros H. unfold frac. assert (0 < INR a) by (apply lt_0_INR; lia). assert (INR a < INR n) by (apply lt_INR; lia). split; [apply Rdiv_lt_0_compat; lra|apply (Rmult_lt_reg_r (INR n)); [lra|]; unfold Rdiv; rewrite Rmult_assoc, Rinv_l by lra; lra]. Qed.
Lemma frac_sum n a b : (1 <= n)%nat -> (a + b < n)%nat -> frac n a + frac n b < 1.
Proof.
  intros Hn H. unfold frac. assert (INR (a + b) < INR n) by (apply lt_INR; lia). rewrite plus_INR in H0. assert (0 < INR n) by (apply lt_0_INR; lia).
  apply (Rmult_lt_reg_r (INR n)); [lra|]. unfold Rdiv. rewrite Rmult_plus_distr_r, !Rmult_assoc, Rinv_l by lra. lra.
Qed.
Ltac positive := first [lra|apply Rmult_lt_0_compat; positive].
Ltac pweights l := unfold ppoint, qpoint; cbn -[IZR frac Rplus Rmult Rminus equispaced in_interior]; rewrite ?equispaced_nth by lia;
  exists l; split; [split; [reflexivity|]; split; [unfold sumR; cbn [fold_right]; ring|]; let j := fresh "j" in let Hj := fresh "Hj" in intros j Hj; cbn [length] in Hj;
    do 3 (destruct j as [|j]; [unfold sumR; cbn [map combine fold_right nth fst snd]; ring|]); exfalso; lia
  |repeat (apply Forall_cons; [positive|]); apply Forall_nil].
Lemma prism_placed n : (1 <= n)%nat -> placed (default CPrism) 3 (prism_closed n).
Proof.
  intros Hn p k e H. unfold prism_closed in H. apply in_app_or in H. destruct H as [H|H]; [|apply in_app_or in H; destruct H as [H|H]; [|apply in_app_or in H; destruct H as [H|H]]].
  - apply in_vertex_dofs in H. destruct H as [-> H]. cbn in H. do 6 (destruct e as [|e]; [injection H as <-; (split; [reflexivity|]); (eexists; split; [eexists; split; [reflexivity|reflexivity]|]); pweights [1]|]). destruct e; discriminate H.
  - apply in_closed_entity in H. destruct H as (-> & He & i & Hi & ->). apply in_tuples in Hi. destruct Hi as [Li Fi]. destruct i as [|a [|]]; try discriminate Li. apply Forall_cons_iff in Fi. destruct Fi as [Fa _]. pose proof (frac_inside n a Fa) as Ba.
    do 9 (destruct e as [|e]; [(split; [reflexivity|]); (eexists; split; [eexists; split; [reflexivity|reflexivity]|]); pweights [1 - frac n a; frac n a]|]). exfalso; lia.
  - apply in_flat_map in H. destruct H as (e' & He & H). apply in_range in He. apply in_map_iff in H. destruct H as (i & X & Hi). injection X as <- <- <-. unfold face_tuples in Hi. apply filter_In in Hi. destruct Hi as [Hi S]. apply in_tuples in Hi. destruct Hi as [Li Fi].
    destruct i as [|a [|b [|]]]; try discriminate Li. apply Forall_cons_iff in Fi. destruct Fi as [Fa Fi]. apply Forall_cons_iff in Fi. destruct Fi as [Fb _]. pose proof (frac_inside n a Fa) as Ba. pose proof (frac_inside n b Fb) as Bb.
    assert (Q : (e' = 0 \/ e' = 4)%nat -> frac n a + frac n b < 1).
    { intros E. apply frac_sum; [exact Hn|]. destruct E as [-> | ->]; cbn [orb Nat.eqb] in S; change (list_sum [a; b] <? n = true)%nat in S; apply Nat.ltb_lt in S; cbn in S; lia. }
    do 5 (destruct e' as [|e']; [(split; [reflexivity|]); (eexists; split; [eexists; split; [reflexivity|reflexivity]|]); try specialize (Q ltac:(lia));
      let t := constr:(frac n a) in let s := constr:(frac n b) in first [pweights [1 - s - t; s; t]|pweights [(1 - s) * (1 - t); s * (1 - t); (1 - s) * t; s * t]]|]). exfalso; lia.
  - apply in_map_iff in H. destruct H as (i & X & Hi). injection X as <- <- <-. unfold inner_tuples in Hi. apply filter_In in Hi. destruct Hi as [Hi S]. apply in_tuples in Hi. destruct Hi as [Li Fi].
    destruct i as [|a [|b [|c [|]]]]; try discriminate Li. apply Forall_cons_iff in Fi. destruct Fi as [Fa Fi]. apply Forall_cons_iff in Fi. destruct Fi as [Fb Fi]. apply Forall_cons_iff in Fi. destruct Fi as [Fc _].
    pose proof (frac_inside n a Fa) as Ba. pose proof (frac_inside n b Fb) as Bb. pose proof (frac_inside n c Fc) as Bc. apply Nat.ltb_lt in S. cbn [nth] in S. pose proof (frac_sum n a b Hn S) as Q.
    (split; [reflexivity|]); (eexists; split; [eexists; split; [reflexivity|reflexivity]|]).
    let x := constr:(frac n a) in let y := constr:(frac n b) in let z := constr:(frac n c) in
    pweights [(1 - x - y) * (1 - z); x * (1 - z); y * (1 - z); (1 - x - y) * z; x * z; y * z].
Qed.

Definition has (E : list nat) (a b : nat) : bool := existsb (fun x => (x =? a)%nat || (x =? b)%nat) E.
Definition low (E : list nat) : bool := existsb (fun x => (x <? 3)%nat) E.
Definition high (E : list nat) : bool := existsb (fun x => negb (x <? 3)%nat) E.
Definition prism_rows (E : list nat) : list (list R) :=
  [ if negb (has E 1 4) then [0] else if has E 0 3 then [0; 1; 0; 0] else if has E 2 5 then [1; 0; -1; 0] else [1];
    if negb (has E 2 5) then [0] else if has E 0 3 || has E 1 4 then [0; 0; 1; 0] else [1];
    if negb (high E) then [0] else if low E then [0; 0; 0; 1] else [1] ].
Definition prism_supports (E : list nat) : list (list R) :=
  (if has E 1 4 then [] else [[0; 1; 0; 0]]) ++ (if has E 2 5 then [] else [[0; 0; 1; 0]]) ++ (if has E 0 3 then [] else [[1; -1; -1; 0]]) ++
  (if high E then [] else [[0; 0; 0; 1]]) ++ (if low E then [] else [[1; 0; 0; -1]]).
Lemma aff3 a b c d v : aff 3 [a; b; c; d] v = a + b * v 0%nat + c * v 1%nat + d * v 2%nat.
Proof. unfold aff. cbn [sum nth]. ring. Qed.

Lemma prism_monomials n i g : (i <= n)%nat -> P_space 2 i g -> forall k, (k <= n)%nat -> prism_space n (fun v => g v * v 2%nat ^ k).
Proof.
  intros Hi (p & Hp & H) k Hk. apply (poly_space_ext _ (fun v => reval p v * v 2%nat ^ k)); [intros v; rewrite H; reflexivity|]. clear g H.
  induction p as [|[c m] p IH]; [apply (poly_space_ext _ (fun _ => 0)); [intros v; cbn; ring|apply poly_space_zero]|]. apply Forall_cons_iff in Hp. destruct Hp as [[L D] Hp]. cbn [snd] in L, D.
  destruct m as [|a [|b [|]]]; try discriminate L. cbn in D.
  apply (poly_space_ext _ (fun v => c * meval [a; b; k] v + reval p v * v 2%nat ^ k)).
  - intros v. change (c * meval [a; b; k] v + reval p v * v 2%nat ^ k = (c * meval [a; b] v + reval p v) * v 2%nat ^ k). unfold meval. cbn [meval_from]. ring.
  - apply poly_space_add; [|apply IH, Hp]. apply poly_space_scale, poly_space_mono. exists a, b, k. split; [reflexivity|]. lia.
Qed.
Lemma prism_subst n f (A B : sfun) (s : option R) : prism_space n f -> P_space 2 1 A -> P_space 2 1 B ->
  prism_space n (fun v => f (fun j => match j with O => A v | S O => B v | _ => match s with Some c => c | None => v 2%nat end end)).
Proof.
  intros (p & Hp & H) HA HB. set (T := fun (v : point) (j : nat) => match j with O => A v | S O => B v | _ => match s with Some c => c | None => v 2%nat end end).
  apply (poly_space_ext _ (fun v => reval p (T v))); [intros v; symmetry; apply H|]. clear f H.
  induction p as [|[c m] p IH]; [apply poly_space_zero|]. apply Forall_cons_iff in Hp. destruct Hp as [(i & j & k & E & Hij & Hk) Hp]. cbn [snd] in E. subst m.
  assert (G : P_space 2 (i + j) (fun v => A v ^ i * B v ^ j)).
  { replace (i + j)%nat with (i * 1 + j * 1)%nat by lia. apply (degree_mul 2 (i * 1) (j * 1) (fun v => A v ^ i) (fun v => B v ^ j)); apply degree_pow; assumption. }
  apply (poly_space_add _ (fun v => c * meval [i; j; k] (T v)) (fun v => reval p (T v))); [|apply IH, Hp]. apply poly_space_scale.
  destruct s as [z|].
  - apply (poly_space_ext _ (fun v => z ^ k * (A v ^ i * B v ^ j * v 2%nat ^ 0))); [intros v; unfold meval, T; cbn [meval_from pow]; ring|]. apply poly_space_scale, (prism_monomials n (i + j) _ Hij G 0). lia.
  - apply (poly_space_ext _ (fun v => A v ^ i * B v ^ j * v 2%nat ^ k)); [intros v; unfold meval, T; cbn [meval_from]; ring|]. apply (prism_monomials n (i + j) _ Hij G k Hk).
Qed.

Lemma prism_entities k e E : entity_is (default CPrism) k e E ->
  (forall a, In a E -> (a < length (r_vertices (default CPrism)))%nat) /\
  (forall l, In l (prism_supports E) -> forall a, (a < length (r_vertices (default CPrism)))%nat -> 0 <= aff 3 l (env_of (vert (default CPrism) a))) /\
  (forall a, (a < length (r_vertices (default CPrism)))%nat -> Forall (fun l => aff 3 l (env_of (vert (default CPrism) a)) = 0) (prism_supports E) -> In a E) /\
  (forall a j, In a E -> (j < 3)%nat -> aff 3 (nth j (prism_rows E) []) (env_of (vert (default CPrism) a)) = nth j (vert (default CPrism) a) 0) /\
  (has E 0 3 || has E 1 4 || has E 2 5 = true) /\ (low E || high E = true).
Proof.
  intros HE. destruct HE as (tab & HT & HN). destruct k as [|[|[|[|k]]]]; cbn in HT; try discriminate HT; injection HT as <-;
    repeat (destruct e as [|e]; [cbn in HN; injection HN as <-|]); try (exfalso; cbn in HN; destruct e; discriminate HN).
  all: split; [intros b Hb; cbn in Hb |- *; lia|].
  all: split; [intros l Hl b Hb; cbn in Hl; cbn in Hb; repeat (destruct Hl as [<-|Hl]; [do 6 (destruct b as [|b]; [unfold aff, env_of, vert; cbn; lra|]); exfalso; lia|]); destruct Hl|].
  all: split; [intros b Hb F; cbn in Hb; unfold prism_supports in F; cbn [has low high existsb Nat.eqb Nat.ltb Nat.leb orb negb app] in F; rewrite ?Forall_cons_iff in F; unfold aff, env_of, vert in F; do 6 (destruct b as [|b]; [first [cbn; lia|exfalso; cbn in F; lra]|]); exfalso; lia|].
  all: split; [|split; reflexivity].
  all: unfold prism_rows; cbn [has low high existsb Nat.eqb Nat.ltb Nat.leb orb negb app].
  all: intros b j Hb Hj; cbn [In] in Hb; repeat (destruct Hb as [<-|Hb]; [do 3 (destruct j as [|j]; [unfold aff, env_of, vert; cbn; lra|]); exfalso; lia|]); destruct Hb.
Qed.

Lemma prism_lattice_zero n f : (1 <= n)%nat -> prism_space n f -> (forall i j k, (i + j <= n)%nat -> (k <= n)%nat -> f (env_of [frac n i; frac n j; frac n k]) = 0) -> forall v, f v = 0.
Proof.
  intros Hn Hf Z. destruct (prism_polynomial_set_1d_ok n) as (ms & Hq & (ND & Hin & _) & Lm). destruct n as [|n]; [lia|].
  apply (lower_space_zero (repeat (frac (S n)) 3) (prism_mono (S n)) ms f ND Hin); [| |exact Hf|].
  - intros m (i & j & k & -> & H1 & H2). apply (fit_box _ (S n) 3); [|reflexivity|reflexivity|].
    + intros l Hl. destruct l as [|[|[|l]]]; [| | |lia]; cbn [nth repeat]; apply frac_distinct; lia.
    + repeat apply Forall_cons; try apply Forall_nil; lia.
  - intros m b (i & j & k & -> & H1 & H2) Hb. inversion Hb as [|x y ? ? X1 Hb1]; subst. inversion Hb1 as [|x' y' ? ? X2 Hb2]; subst. inversion Hb2 as [|x'' y'' ? ? X3 Hb3]; subst. inversion Hb3; subst.
    eexists _, _, _. split; [reflexivity|]. lia.
  - intros m (i & j & k & -> & H1 & H2). apply (Z i j k H1 H2).
Qed.
Lemma prism_traces n : (1 <= n)%nat -> traces (default CPrism) 3 (prism_space n) (prism_closed n).
Proof.
  intros Hn k e E f HE Wf Z. destruct (prism_entities k e E HE) as (A1 & A2 & A3 & A4 & A5 & A6).
  set (lat := fun p => exists i j k, p = [frac n i; frac n j; frac n k] /\ (i + j <= n)%nat /\ (k <= n)%nat).
  assert (F0 := frac_0 n). assert (F1 := frac_n n Hn).
  apply (retract_trace (default CPrism) 3 (prism_space n) (prism_closed n) E (prism_rows E) (prism_supports E) lat f); auto.
  - intros g v w Hg. apply (poly_local 3 _ g v w) with (2 := Hg). intros m (i & j & l & -> & _). reflexivity.
  - intros g Hg Zg. apply (prism_lattice_zero n g Hn Hg). intros i j l H1 H2. apply (Zg [frac n i; frac n j; frac n l]). exists i, j, l. auto.
  - intros p (i & j & l & -> & H1 & H2). apply prism_lattice; assumption.
  - apply prism_placed, Hn.
  - intros k' e' E' a HE' Ha. exact (proj1 (prism_entities k' e' E' HE') a Ha).
  - intros g Hg.
    assert (L : forall a b c, P_space 2 1 (fun v => a + b * v 0%nat + c * v 1%nat)).
    { intros a b c. apply (poly_space_add _ (fun v => a + b * v 0%nat) (fun v => c * v 1%nat)); [apply (poly_space_add _ (fun _ => a) (fun v => b * v 0%nat)); [apply degree_const|apply poly_space_scale, degree_var; lia]|apply poly_space_scale, degree_var; lia]. }
    assert (X : exists a b c a' b' c' s, forall v, aff 3 (nth 0 (prism_rows E) []) v = a + b * v 0%nat + c * v 1%nat /\ aff 3 (nth 1 (prism_rows E) []) v = a' + b' * v 0%nat + c' * v 1%nat /\
      aff 3 (nth 2 (prism_rows E) []) v = match s with Some z => z | None => v 2%nat end).
    { unfold prism_rows. cbn [nth].
      assert (X0 : exists a b c, forall v, aff 3 (if negb (has E 1 4) then [0] else if has E 0 3 then [0; 1; 0; 0] else if has E 2 5 then [1; 0; -1; 0] else [1]) v = a + b * v 0%nat + c * v 1%nat).
      { destruct (negb (has E 1 4)); [exists 0, 0, 0; intros v; rewrite aff_const; ring|]. destruct (has E 0 3); [exists 0, 1, 0; intros v; rewrite aff3; ring|]. destruct (has E 2 5); [exists 1, 0, (-1); intros v; rewrite aff3; ring|exists 1, 0, 0; intros v; rewrite aff_const; ring]. }
      assert (X1 : exists a b c, forall v, aff 3 (if negb (has E 2 5) then [0] else if has E 0 3 || has E 1 4 then [0; 0; 1; 0] else [1]) v = a + b * v 0%nat + c * v 1%nat).
      { destruct (negb (has E 2 5)); [exists 0, 0, 0; intros v; rewrite aff_const; ring|]. destruct (has E 0 3 || has E 1 4); [exists 0, 0, 1; intros v; rewrite aff3; ring|exists 1, 0, 0; intros v; rewrite aff_const; ring]. }
      assert (X2 : exists s, forall v, aff 3 (if negb (high E) then [0] else if low E then [0; 0; 0; 1] else [1]) v = match s with Some z => z | None => v 2%nat end).
      { destruct (negb (high E)); [exists (Some 0); intros v; apply aff_const|]. destruct (low E); [exists None; intros v; rewrite aff3; ring|exists (Some 1); intros v; apply aff_const]. }
      destruct X0 as (a & b & c & X0). destruct X1 as (a' & b' & c' & X1). destruct X2 as (s & X2). exists a, b, c, a', b', c', s. intros v. auto. }
    destruct X as (a & b & c & a' & b' & c' & s & X).
    eapply poly_space_ext; [|exact (prism_subst n g _ _ s Hg (L a b c) (L a' b' c'))]. intros v. cbn beta.
    apply (poly_local 3 _ g) with (2 := Hg); [intros m (i & j & l & -> & _); reflexivity|]. intros j Hj. destruct (X v) as (E1 & E2 & E3). destruct j as [|[|[|j]]]; [symmetry; exact E1|symmetry; exact E2|symmetry; exact E3|lia].
  - intros p (i & j & l & -> & H1 & H2).
    assert (Y : forall i' j' l', (i' + j' <= n)%nat -> (l' <= n)%nat -> (forall q, (q < 3)%nat -> aff 3 (nth q (prism_rows E) []) (env_of [frac n i; frac n j; frac n l]) = nth q [frac n i'; frac n j'; frac n l'] 0) ->
      Forall (fun l => aff 3 l (env_of [frac n i'; frac n j'; frac n l']) = 0) (prism_supports E) ->
      exists p', lat p' /\ (forall q, (q < 3)%nat -> aff 3 (nth q (prism_rows E) []) (env_of [frac n i; frac n j; frac n l]) = nth q p' 0) /\ Forall (fun l => aff 3 l (env_of p') = 0) (prism_supports E)).
    { intros i' j' l' B1 B2 B3 B4. exists [frac n i'; frac n j'; frac n l']. split; [exists i', j', l'; auto|]. auto. }
    set (l' := if negb (high E) then 0%nat else if low E then l else n).
    set (j' := if negb (has E 2 5) then 0%nat else if has E 0 3 || has E 1 4 then j else n).
    set (i' := if negb (has E 1 4) then 0%nat else if has E 0 3 then i else if has E 2 5 then (n - j)%nat else n).
    assert (C := frac_compl n (n - j) j Hn ltac:(lia)).
    apply (Y i' j' l'); unfold i', j', l'; clear Y i' j' l' A1 A2 A3 A4 Z HE Wf.
    + destruct (has E 0 3), (has E 1 4), (has E 2 5); cbn [negb orb]; lia.
    + destruct (high E), (low E); cbn [negb]; lia.
    + intros q Hq. unfold prism_rows. destruct q as [|[|[|q]]]; [| | |lia]; cbn [nth].
      * destruct (has E 0 3), (has E 1 4), (has E 2 5); cbn [negb orb]; rewrite ?aff_const, ?aff3; unfold env_of; cbn [nth]; lra.
      * destruct (has E 0 3), (has E 1 4), (has E 2 5); cbn [negb orb]; rewrite ?aff_const, ?aff3; unfold env_of; cbn [nth]; lra.
      * destruct (high E), (low E); cbn [negb orb]; rewrite ?aff_const, ?aff3; unfold env_of; cbn [nth]; lra.
    + unfold prism_supports. rewrite !Forall_app. destruct (has E 0 3), (has E 1 4), (has E 2 5); try discriminate A5; (destruct (high E), (low E); try discriminate A6; cbn [negb orb];
        repeat split; try apply Forall_nil; apply Forall_cons; try apply Forall_nil; rewrite aff3; unfold env_of; cbn [nth]; lra).
Qed.

(** * Conforming Crouzeix-Raviart elements *)
Lemma cr_placed n : (1 <= n)%nat -> placed (default CTriangle) 2 (cr_dofs n).
Proof.
  intros Hn p k e H. unfold cr_dofs in H. apply in_app_or in H. destruct H as [H|H].
  - apply in_vertex_dofs in H. destruct H as [-> H]. cbn in H. do 3 (destruct e as [|e]; [injection H as <-; (split; [reflexivity|]); (eexists; split; [eexists; split; [reflexivity|reflexivity]|]); 
      exists [1]; split; [split; [reflexivity|]; split; [unfold sumR; cbn; ring|]; intros j Hj; do 2 (destruct j as [|j]; [unfold sumR; cbn; ring|]); cbn in Hj; exfalso; lia|repeat constructor; lra]|]). destruct e; discriminate H.
  - destruct (Nat.leb_spec 2 n) as [L|L]; [|destruct H]. assert (N : 0 < INR n) by (apply lt_0_INR; lia). apply in_app_or in H. destruct H as [H|H].
    + unfold ccr_edge_dofs in H. cbn [edges enumerate length range seq combine] in H. apply in_flat_map in H. destruct H as ([i E] & HE & H).
      apply in_map_iff in H. destruct H as (a & X & Ha). injection X as <- <- <-. apply in_range2 in Ha.
      assert (B : 0 < INR a < INR n) by (split; [apply lt_0_INR|apply lt_INR]; lia). assert (M : INR (n - a) = INR n - INR a) by (apply minus_INR; lia).
      cbn [In] in HE. destruct HE as [X|[X|[X|[]]]]; injection X as <- <-; (split; [reflexivity|]); (eexists; split; [eexists; split; [reflexivity|reflexivity]|]);
        exists [1 - INR a / INR n; INR a / INR n]; (split; [split; [reflexivity|]; split; [unfold sumR; cbn [fold_right]; ring|]; intros j Hj; rewrite !M;
          (do 2 (destruct j as [|j]; [unfold sumR; cbn -[INR IZR]; field; lra|])); cbn in Hj; exfalso; lia|]);
        (assert (0 < INR a / INR n) by (apply Rdiv_lt_0_compat; lra)); (assert (INR a / INR n < 1) by (apply (Rmult_lt_reg_r (INR n)); [lra|]; unfold Rdiv; rewrite Rmult_assoc, Rinv_l by lra; lra));
        repeat (apply Forall_cons; [lra|]); apply Forall_nil.
    + unfold ccr_interior_dofs in H. apply in_flat_map in H. destruct H as (i & Hi & H). apply in_map_iff in H. destruct H as (j & X & Hj).
      assert (XX : p = [INR (3 * i - 1) / INR (3 * n); INR (3 * j - 1) / INR (3 * n)] /\ k = 2%nat /\ e = 0%nat) by (injection X as <- <- <-; auto). clear X. destruct XX as (-> & -> & ->). apply in_range2 in Hi. apply in_range2 in Hj.
      split; [reflexivity|]. eexists. split; [eexists; split; [reflexivity|reflexivity]|].
      set (x := INR (3 * i - 1) / INR (3 * n)). set (y := INR (3 * j - 1) / INR (3 * n)). assert (N3 : 0 < INR (3 * n)) by (apply lt_0_INR; lia).
      assert (0 < x) by (apply Rdiv_lt_0_compat; [apply lt_0_INR; lia|exact N3]). assert (0 < y) by (apply Rdiv_lt_0_compat; [apply lt_0_INR; lia|exact N3]).
      assert (x + y < 1).
      { unfold x, y. apply (Rmult_lt_reg_r (INR (3 * n))); [exact N3|]. unfold Rdiv. rewrite Rmult_plus_distr_r, !Rmult_assoc, Rinv_l by lra. rewrite !Rmult_1_r, Rmult_1_l, <- plus_INR. apply lt_INR. lia. }
      clearbody x y. exists [1 - x - y; x; y]. split; [split; [reflexivity|]; split; [unfold sumR; cbn [fold_right]; ring|]; intros l Hl; do 2 (destruct l as [|l]; [unfold sumR; cbn -[INR IZR]; ring|]); cbn in Hl; exfalso; lia|].
      repeat (apply Forall_cons; [lra|]). apply Forall_nil.
Qed.
(** a point on an edge belongs to the closure of the edge *)
Lemma cr_closure l q E E' : length q = 2%nat -> in_interior (map (vert (default CTriangle)) E') q -> aff 2 l (env_of q) = 0 ->
  (forall a, In a E' -> (a < 3)%nat) -> (forall a, (a < 3)%nat -> 0 <= aff 2 l (env_of (vert (default CTriangle) a)) /\ (aff 2 l (env_of (vert (default CTriangle) a)) = 0 -> In a E)) -> incl E' E.
Proof.
  intros Lq (w & Hc & Hpos) Lz Tab S a Ha. apply (S a (Tab a Ha)). rewrite (aff_comb 2 l w _ q Lq Hc) in Lz.
  assert (X : Forall (fun a => a = 0) (map (fun b => aff 2 l (env_of (vert (default CTriangle) b))) E')).
  { apply (sumR_pos_zero w); [rewrite map_length; destruct Hc as (Lw & _); rewrite map_length in Lw; exact Lw|exact Hpos| |].
    - apply Forall_map, Forall_forall. intros b Hb. apply S, Tab, Hb.
    - rewrite <- Lz. f_equal. clear. revert E'. induction w as [|x w IH]; intros [|b E']; try reflexivity. cbn [map combine fst snd]. f_equal. apply IH. }
  rewrite Forall_forall in X. apply X. apply in_map_iff. exists a. auto.
Qed.
Lemma triangle_table k e E a : entity_is (default CTriangle) k e E -> In a E -> (a < 3)%nat.
Proof.
  intros (tab & HT & HN) Ha. apply nth_error_In in HN. destruct k as [|[|[|[|k]]]]; cbn in HT; try discriminate HT; injection HT as <-; cbn in HN;
    repeat (destruct HN as [<-|HN]; [cbn in Ha; lia|]); destruct HN.
Qed.
Lemma cr_traces n : (1 <= n)%nat -> traces (default CTriangle) 2 (ccr_space n) (cr_dofs n).
Proof.
  intros Hn k e E f HE Wf Z p Lp Hp. pose proof (ccr_degree n f Wf) as Hf. pose proof (cr_placed n Hn) as P.
  destruct p as [|x [|y [|]]]; try discriminate Lp. rewrite (on_pair _ f _ Hf). unfold env_of at 1 2. cbn [nth].
  assert (K : (forall i, (i < 3)%nat -> k = 1%nat -> e = i -> f (pair x y) = 0)).
  { intros i Hi -> ->.
    assert (EE : E = nth i (edges CTriangle) []) by (destruct HE as (tab & HT & HN); cbn in HT; injection HT as <-; apply (nth_error_nth _ _ []) in HN; symmetry; exact HN).
    assert (L : forall t, f (pair (match i with O => 1 - t | S O => 0 | _ => t end) (match i with O => t | S O => t | _ => 0 end)) = 0).
    { apply (cr_lines n f i Hn Wf Hi). intros a Ha. destruct (cr_edge n i a Hi Ha Hn) as ([k' e'] & q & Hq & Lq & E0 & E1). rewrite <- E0, <- E1, <- (on_pair _ f (env_of q) Hf).
      destruct (P q k' e' Hq) as (_ & E' & HE' & I). apply (Z q k' e' E' Hq HE').
      apply (cr_closure (match i with O => [1; -1; -1] | S O => [0; 1] | _ => [0; 0; 1] end) q E E' Lq I); [| |].
      - destruct i as [|[|[|i]]]; [| | |lia]; unfold aff; cbn [sum nth]; rewrite E0, E1; ring.
      - intros b. apply (triangle_table k' e' E' b HE').
      - intros b Hb. rewrite EE. destruct i as [|[|[|i]]]; [| | |lia]; (destruct b as [|[|[|b]]]; [| | |lia]); unfold aff, vert, env_of; cbn; (split; [lra|intros X; first [lra|tauto]]). }
    destruct Hp as (w & Lw & S1 & C). rewrite EE in *. clear EE. pose proof (C 0%nat ltac:(cbn; lia)) as C0. pose proof (C 1%nat ltac:(cbn; lia)) as C1. unfold vert in Lw, C0, C1.
    destruct i as [|[|[|i]]]; [| | |lia]; cbn in Lw, C0, C1; (destruct w as [|a [|b [|]]]; try discriminate Lw); unfold sumR in *; cbn in S1, C0, C1.
    - replace x with (1 - y) by lra. apply L.
    - replace x with 0 by lra. apply L.
    - replace y with 0 by lra. apply L. }
  destruct k as [|[|[|k]]].
  - destruct Hp as (w & Lw & S1 & C). pose proof (C 0%nat ltac:(cbn; lia)) as C0. pose proof (C 1%nat ltac:(cbn; lia)) as C1. clear C.
    assert (V : exists q, nth_error (r_vertices (default CTriangle)) e = Some q /\ length q = 2%nat /\ E = [e]).
    { destruct HE as (tab & HT & HN). cbn in HT. injection HT as <-. do 3 (destruct e as [|e]; [cbn in HN; injection HN as <-; eexists; split; [reflexivity|auto]|]). cbn in HN. destruct e; discriminate HN. }
    destruct V as (q & Hq & Lq & ->). cbn [map] in Lw, C0, C1. destruct w as [|a [|]]; try discriminate Lw. assert (VQ : vert (default CTriangle) e = q) by (apply nth_error_nth; exact Hq). rewrite VQ in C0, C1.
    unfold sumR in *. cbn in S1, C0, C1. assert (a = 1) by lra. subst a.
    rewrite <- (Z q 0%nat e [e]); [|apply in_or_app; left; apply in_vertex_dofs; auto|exact HE|intros b Hb; exact Hb].
    rewrite (on_pair _ f (env_of q) Hf). unfold env_of. replace x with (nth 0 q 0) by lra. replace y with (nth 1 q 0) by lra. reflexivity.
  - destruct e as [|[|[|e]]]; [apply (K 0%nat); auto|apply (K 1%nat); auto|apply (K 2%nat); auto|]. destruct HE as (tab & HT & HN). cbn in HT. injection HT as <-. cbn in HN. destruct e; discriminate HN.
  - apply (cr_zero n f Hn Wf). intros q [k' e'] Hq. destruct (P q k' e' Hq) as (_ & E' & HE' & _). apply (Z q k' e' E' Hq HE').
    assert (EE : E = [0; 1; 2]%nat). { destruct HE as (tab & HT & HN). cbn in HT. injection HT as <-. destruct e as [|e]; [cbn in HN; injection HN as <-; reflexivity|destruct e; discriminate HN]. }
    intros b Hb. apply (triangle_table k' e' E' b HE') in Hb. rewrite EE. cbn. lia.
  - destruct HE as (tab & HT & HN). destruct k as [|k]; cbn in HT; [injection HT as <-; destruct e; discriminate HN|discriminate HT].
Qed.
