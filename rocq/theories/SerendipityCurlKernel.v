(** Fields of the H(curl) serendipity space on the cube that vanish. *)
From Coquelicot Require Import Coquelicot.
From Coq Require Import String Arith ZArith Reals Lia Lra Bool List FunctionalExtensionality.
From Verif Require Import Base PolyLib PolySetsModel PolySetsProofs PolyVec LinAlg UnisolvenceProofs LagrangeUnisolvence LagrangeKey LegendreJacobi LegendreIntSpec LegendreIntegrals KmvProofs MomentsInt MomentsParts MomentsRT MomentsBox
  PointsModel PointsSpec MomentsRaviart SerendipitySpec SerendipityKernel SerendipityFieldSpec SerendipityFieldKernel SerendipityCurlSpec.
From Verif Require ReferencesModel CiarletProofs.
Import PolyVec ListNotations.
Local Open Scope R_scope.

(** * Coefficients of derivatives and multiples *)
Fixpoint inc_at (i : nat) (m : mono) : mono := match m, i with [], _ => [] | e :: m', O => S e :: m' | e :: m', S i' => e :: inc_at i' m' end.
Definition rinc (i : nat) (p : rpoly) : rpoly := map (fun t => (fst t, inc_at i (snd t))) p.
Definition rdiff (i : nat) (p : rpoly) : rpoly := map (fun t => (fst t * INR (nth i (snd t) 0%nat), dec_at i (snd t))) (filter (fun t => (1 <=? nth i (snd t) 0)%nat) p).
Definition sized (d : nat) (p : rpoly) : Prop := Forall (fun t => length (snd t) = d) p.
Lemma inc_length i m : length (inc_at i m) = length m. Proof. revert i. induction m as [|e m IH]; intros [|i]; cbn; auto. Qed.
Lemma dec_length i m : length (dec_at i m) = length m. Proof. revert i. induction m as [|e m IH]; intros [|i]; cbn; auto. Qed.
Lemma inc_dec i m : (1 <= nth i m 0)%nat -> inc_at i (dec_at i m) = m.
Proof. revert i. induction m as [|e m IH]; intros [|i] H; cbn in *; try lia; [f_equal; lia|f_equal; apply IH, H]. Qed.
Lemma dec_inc i m : dec_at i (inc_at i m) = m. Proof. revert i. induction m as [|e m IH]; intros [|i]; cbn; try reflexivity; [rewrite Nat.sub_0_r; reflexivity|rewrite IH; reflexivity]. Qed.
Lemma nth_inc i m j : (i < length m)%nat -> nth j (inc_at i m) 0%nat = (nth j m 0 + if (j =? i)%nat then 1 else 0)%nat.
Proof. revert i j. induction m as [|e m IH]; intros [|i] [|j] H; cbn in *; try lia. rewrite IH by lia. reflexivity. Qed.
Lemma nth_dec i m j : nth j (dec_at i m) 0%nat = (nth j m 0 - if (j =? i)%nat then 1 else 0)%nat.
Proof. revert i j. induction m as [|e m IH]; intros [|i] [|j]; cbn; try lia; try reflexivity; try (destruct (j =? i)%nat; reflexivity); rewrite IH; reflexivity. Qed.
Lemma meval_inc i m v : (i < length m)%nat -> meval (inc_at i m) v = v i * meval m v.
Proof.
  unfold meval. replace (v i) with (v (0 + i)%nat) by reflexivity. generalize 0%nat at 1 2 3. revert i. induction m as [|e m IH]; intros [|i] k H; cbn [inc_at meval_from length] in *; try lia.
  - rewrite Nat.add_0_r. cbn [pow]. ring.
  - rewrite IH by lia. replace (S k + i)%nat with (k + S i)%nat by lia. ring.
Qed.
Lemma reval_rinc d i p v : (i < d)%nat -> sized d p -> reval (rinc i p) v = v i * reval p v.
Proof.
  intros Hi H. induction H as [|[c m] p L _ IH]; [cbn; ring|]. cbn [snd] in L. change (c * meval (inc_at i m) v + reval (rinc i p) v = v i * (c * meval m v + reval p v)). rewrite IH, meval_inc by lia. ring.
Qed.
Lemma reval_partial i p v : is_partial i (reval p) v (reval (rdiff i p) v).
Proof.
  induction p as [|[c m] p IH]; [exact (derivable_pt_lim_const 0 (v i))|].
  assert (E : reval (rdiff i ((c, m) :: p)) v = c * (INR (nth i m 0%nat) * meval (dec_at i m) v) + reval (rdiff i p) v).
  { unfold rdiff. cbn [filter fst snd]. destruct (Nat.leb_spec 1 (nth i m 0%nat)) as [H|H]; [cbn [map reval fold_right fst snd]; unfold reval; ring|]. assert (Z : nth i m 0%nat = 0%nat) by lia. rewrite Z. cbn [INR]. ring. }
  rewrite E. unfold is_partial. apply (derivable_pt_lim_ext (fun t => c * meval m (upd v i t) + reval p (upd v i t))); [intros t; reflexivity|].
  apply (derivable_pt_lim_plus (fun t => c * meval m (upd v i t)) (fun t => reval p (upd v i t))); [|exact IH]. apply (derivable_pt_lim_scal (fun t => meval m (upd v i t)) c). apply meval_partial.
Qed.
Lemma coef_rinc d i p m : (i < d)%nat -> sized d p -> length m = d -> coef (rinc i p) m = if (nth i m 0 =? 0)%nat then 0 else coef p (dec_at i m).
Proof.
  intros Hi H L. induction H as [|[c b] p Lb _ IH]; [cbn; destruct (_ =? _)%nat; reflexivity|]. change (coef (rinc i ((c, b) :: p)) m) with ((if mono_eq_dec (inc_at i b) m then c else 0) + coef (rinc i p) m). rewrite IH.
  change (coef ((c, b) :: p) (dec_at i m)) with ((if mono_eq_dec b (dec_at i m) then c else 0) + coef p (dec_at i m)). cbn [snd] in Lb.
  destruct (mono_eq_dec (inc_at i b) m) as [E|E].
  - subst m. rewrite nth_inc, Nat.eqb_refl by lia. rewrite Nat.add_1_r. cbn [Nat.eqb]. rewrite dec_inc. destruct (mono_eq_dec b b); [reflexivity|congruence].
  - destruct (Nat.eqb_spec (nth i m 0%nat) 0) as [Z|Z]; [lra|]. destruct (mono_eq_dec b (dec_at i m)) as [E'|]; [|reflexivity]. exfalso. apply E. rewrite E'. apply inc_dec. lia.
Qed.
Lemma coef_rdiff d i p m : (i < d)%nat -> sized d p -> length m = d -> coef (rdiff i p) m = INR (S (nth i m 0%nat)) * coef p (inc_at i m).
Proof.
  intros Hi H L. unfold rdiff. induction H as [|[c b] p Lb _ IH]; [cbn; ring|]. cbn [filter fst snd]. cbn [snd] in Lb. change (coef ((c, b) :: p) (inc_at i m)) with ((if mono_eq_dec b (inc_at i m) then c else 0) + coef p (inc_at i m)). rewrite Rmult_plus_distr_l, <- IH.
  destruct (Nat.leb_spec 1 (nth i b 0%nat)) as [H1|H1].
  - cbn [map coef fold_right fst snd]. f_equal. destruct (mono_eq_dec (dec_at i b) m) as [E|E], (mono_eq_dec b (inc_at i m)) as [E'|E'].
    + rewrite E', nth_inc, Nat.eqb_refl, Nat.add_1_r by lia. ring.
    + exfalso. apply E'. rewrite <- E. symmetry. apply inc_dec, H1.
    + exfalso. apply E. rewrite E'. apply dec_inc.
    + ring.
  - destruct (mono_eq_dec b (inc_at i m)) as [E'|E']; [|ring]. exfalso. rewrite E', nth_inc, Nat.eqb_refl in H1 by lia. lia.
Qed.
Lemma coef_outside (ok : mono -> Prop) p m : Forall (fun t => ok (snd t)) p -> ~ ok m -> coef p m = 0.
Proof. intros H N. induction H as [|[c b] p Hb _ IH]; [reflexivity|]. cbn. fold (coef p m). rewrite IH. destruct (mono_eq_dec b m) as [->|]; [contradiction|ring]. Qed.
Lemma coef_unique d p q m : sized d p -> sized d q -> (forall v, reval p v = reval q v) -> length m = d -> coef p m = coef q m.
Proof.
  intros Hp Hq E L. assert (Z : coef (p ++ rscale (-1) q) m = 0).
  { apply (poly_identity d); [|intros v; rewrite reval_app, reval_rscale, E; ring|exact L]. apply Forall_app. split; [exact Hp|]. apply (Forall_rscale (fun m => length m = d)), Hq. }
  rewrite coef_app, coef_rscale in Z. lra.
Qed.
Lemma coef_cons c b (p : rpoly) m : coef ((c, b) :: p) m = (if mono_eq_dec b m then c else 0) + coef p m. Proof. reflexivity. Qed.
Lemma reval_cons c b (p : rpoly) v : reval ((c, b) :: p) v = c * meval b v + reval p v. Proof. reflexivity. Qed.
(** terms that cancel can be left out *)
Lemma drop_terms (bad : mono -> bool) p : (forall m, bad m = true -> coef p m = 0) -> forall v, reval p v = reval (filter (fun t => negb (bad (snd t))) p) v.
Proof.
  intros H v. assert (Z : reval (filter (fun t => bad (snd t)) p) v = 0).
  { rewrite (reval_coefs (nodup mono_eq_dec (map snd (filter (fun t => bad (snd t)) p)))); [|apply NoDup_nodup|apply Forall_forall; intros t Ht; apply nodup_In, in_map, Ht].
    assert (G : forall l, (forall m, In m l -> coef (filter (fun t => bad (snd t)) p) m = 0) -> fold_right (fun m acc => coef (filter (fun t => bad (snd t)) p) m * meval m v + acc) 0 l = 0).
    { induction l as [|m l IH]; intros K; [reflexivity|]. cbn [fold_right]. rewrite (K m (or_introl eq_refl)), IH by (intros x Hx; apply K; right; exact Hx). ring. }
    apply G. intros m Hm. apply nodup_In in Hm. apply in_map_iff in Hm. destruct Hm as (t & <- & Ht). apply filter_In in Ht. destruct Ht as [_ Hb]. rewrite <- (H _ Hb). generalize (snd t) Hb. clear. intros m Hb.
    induction p as [|[c b] p IH]; [reflexivity|]. cbn [filter snd]. destruct (bad b) eqn:Eb; rewrite !coef_cons, ?IH; [reflexivity|]. destruct (mono_eq_dec b m) as [->|]; [congruence|ring]. }
  rewrite <- (Rplus_0_l (reval (filter _ p) v)), <- Z. clear. induction p as [|[c b] p IH]; [cbn; ring|]. cbn [filter snd]. destruct (bad b); cbn [negb]; rewrite !reval_cons, IH; ring.
Qed.

(** * The components as polynomials *)
Definition triple (i j k : nat) : Prop := (i < 3 /\ j < 3 /\ k < 3 /\ i <> j /\ j <> k /\ i <> k)%nat.
Definition sl (a : nat) : nat := match a with 1%nat => 0%nat | _ => a end.
Lemma triple_deg i j k m : triple i j k -> length m = 3%nat -> mdeg m = (nth i m 0 + nth j m 0 + nth k m 0)%nat.
Proof.
  intros T L. destruct m as [|a [|b [|c [|]]]]; try discriminate L. unfold triple in T. destruct i as [|[|[|i]]], j as [|[|[|j]]], k as [|[|[|k]]]; try lia; cbn [mdeg nth]; lia.
Qed.
Lemma triple_superlinear i j k m : triple i j k -> length m = 3%nat -> superlinear m = (sl (nth i m 0) + sl (nth j m 0) + sl (nth k m 0))%nat.
Proof.
  intros T L. destruct m as [|a [|b [|c [|]]]]; try discriminate L. unfold triple in T. change (superlinear [a; b; c]) with (sl a + (sl b + (sl c + 0)))%nat. destruct i as [|[|[|i]]], j as [|[|[|j]]], k as [|[|[|k]]]; try lia; cbn [nth]; lia.
Qed.
Lemma sl_cases a : (a = 1 /\ sl a = 0)%nat \/ (a <> 1 /\ sl a = a)%nat. Proof. destruct a as [|[|a]]; cbn; lia. Qed.
(** component j of a field in terms of the polynomials of its parts *)
Definition curl_comp (P H : nat -> rpoly) (sg : nat -> nat -> R) (S : rpoly) (i j k : nat) : rpoly :=
  P j ++ rinc i (rinc k (rscale (sg j i) (H i) ++ rscale (sg j k) (H k))) ++ rdiff j S.
Definition curl_parts (n : nat) (P H : nat -> rpoly) (S : rpoly) : Prop :=
  (forall c, (c < 3)%nat -> Forall (fun t => length (snd t) = 3%nat /\ (mdeg (snd t) <= n)%nat) (P c)) /\
  (forall c, (c < 3)%nat -> Forall (fun t => length (snd t) = 3%nat /\ mdeg (snd t) = (n - 1)%nat /\ nth c (snd t) 0%nat = 0%nat) (H c)) /\
  Forall (fun t => length (snd t) = 3%nat /\ (superlinear (snd t) <= n + 1)%nat) S.
Definition curl_sign (c i : nat) : R := match c, i with O, _ => 1 | S O, O => 1 | S O, _ => -1 | _, _ => -1 end.
Lemma curl_sign_opposite i j k : triple i j k -> curl_sign j i = - curl_sign k i.
Proof. unfold triple. intros T. destruct i as [|[|[|i]]], j as [|[|[|j]]], k as [|[|[|k]]]; try lia; cbn; ring. Qed.
Lemma Forall_rinc (ok ok' : mono -> Prop) i p : Forall (fun t => ok (snd t)) p -> (forall m, ok m -> ok' (inc_at i m)) -> Forall (fun t => ok' (snd t)) (rinc i p).
Proof. intros H K. apply Forall_forall. intros t Ht. apply in_map_iff in Ht. destruct Ht as (u & <- & Hu). cbn [snd]. apply K. rewrite Forall_forall in H. apply H, Hu. Qed.
Lemma Forall_rdiff (ok ok' : mono -> Prop) i p : Forall (fun t => ok (snd t)) p -> (forall m, ok m -> (1 <= nth i m 0)%nat -> ok' (dec_at i m)) -> Forall (fun t => ok' (snd t)) (rdiff i p).
Proof.
  intros H K. apply Forall_forall. intros t Ht. apply in_map_iff in Ht. destruct Ht as (u & <- & Hu). cbn [snd]. apply filter_In in Hu. destruct Hu as [Hu Hb]. apply Nat.leb_le in Hb. apply K; [|exact Hb]. rewrite Forall_forall in H. apply H, Hu.
Qed.
Lemma Forall_sized (ok : mono -> Prop) d p : Forall (fun t => ok (snd t)) p -> (forall m, ok m -> length m = d) -> sized d p.
Proof. intros H K. eapply Forall_impl; [|exact H]. intros t. apply K. Qed.
(** what holds of the monomials of the three kinds of terms of component j *)
Lemma curl_comp_forall n P H S i j k (ok : mono -> Prop) : triple i j k -> curl_parts n P H S ->
  (forall m, length m = 3%nat -> (nth i m 0 + nth j m 0 + nth k m 0 <= n)%nat -> ok m) ->
  (forall m, length m = 3%nat -> (nth i m 0 = 1 \/ nth k m 0 = 1)%nat -> (1 <= nth i m 0)%nat -> (1 <= nth k m 0)%nat -> (nth i m 0 + nth j m 0 + nth k m 0 = n - 1 + 2)%nat -> ok m) ->
  (forall m, length m = 3%nat -> (superlinear (inc_at j m) <= n + 1)%nat -> In (inc_at j m) (map snd S) -> ok m) ->
  Forall (fun t => ok (snd t)) (curl_comp P H curl_sign S i j k).
Proof.
  intros T (HP & HH & HS) K1 K2 K3. assert (T' := T). destruct T' as (Hi & Hj & Hk & Hij & Hjk & Hik). unfold curl_comp. apply Forall_app. split; [|apply Forall_app; split].
  - eapply Forall_impl; [|apply HP, Hj]. intros [c m] [L D]. cbn [snd] in *. apply K1; [exact L|]. rewrite <- (triple_deg i j k m T L). exact D.
  - set (mid := fun m => length m = 3%nat /\ mdeg m = (n - 1)%nat /\ (nth i m 0 = 0 \/ nth k m 0 = 0)%nat).
    assert (M : Forall (fun t => mid (snd t)) (rscale (curl_sign j i) (H i) ++ rscale (curl_sign j k) (H k))).
    { apply Forall_app. split; apply (Forall_rscale mid); [eapply Forall_impl; [|apply HH, Hi]|eapply Forall_impl; [|apply HH, Hk]]; intros t (L & D & Z); (split; [exact L|split; [exact D|tauto]]). }
    set (mid1 := fun m => length m = 3%nat /\ (nth i m 0 = 0 \/ nth k m 0 = 1)%nat /\ (1 <= nth k m 0)%nat /\ (nth i m 0 + nth j m 0 + nth k m 0 = n - 1 + 1)%nat).
    apply (Forall_rinc mid1 ok i (rinc k (rscale (curl_sign j i) (H i) ++ rscale (curl_sign j k) (H k)))).
    + apply (Forall_rinc mid mid1 k (rscale (curl_sign j i) (H i) ++ rscale (curl_sign j k) (H k)) M). unfold mid1. intros m (L & D & Z). rewrite (triple_deg i j k _ T L) in D. rewrite inc_length, !nth_inc, Nat.eqb_refl by lia. rewrite (proj2 (Nat.eqb_neq i k)), (proj2 (Nat.eqb_neq j k)) by lia. split; [exact L|lia].
    + intros m (L & Z & L1 & D). apply K2; rewrite ?inc_length, ?nth_inc, ?Nat.eqb_refl by lia; rewrite ?(proj2 (Nat.eqb_neq k i)), ?(proj2 (Nat.eqb_neq j i)) by lia; lia.
  - apply Forall_forall. intros t Ht. apply in_map_iff in Ht. destruct Ht as (u & <- & Hu). cbn [snd]. apply filter_In in Hu. destruct Hu as [Hu Hb]. apply Nat.leb_le in Hb. rewrite Forall_forall in HS. destruct (HS u Hu) as [L Q].
    apply K3; [rewrite dec_length; exact L|rewrite inc_dec by exact Hb; exact Q|rewrite inc_dec by exact Hb; apply in_map, Hu].
Qed.
Lemma curl_comp_sized n P H S i j k : triple i j k -> curl_parts n P H S -> sized 3 (curl_comp P H curl_sign S i j k).
Proof. intros T HP. apply (curl_comp_forall n P H S i j k (fun m => length m = 3%nat) T HP); auto. Qed.
Lemma parts_sized n P H S c : (c < 3)%nat -> curl_parts n P H S -> sized 3 (P c) /\ sized 3 (H c) /\ sized 3 S.
Proof. intros Hc (HP & HH & HS). split; [|split]; (eapply Forall_impl; [|first [apply (HP c Hc)|apply (HH c Hc)|exact HS]]); intros t Ht; apply Ht. Qed.
Lemma sized_scaled d a p : sized d p -> sized d (rscale a p). Proof. apply (Forall_rscale (fun m => length m = d)). Qed.
Lemma sized_rinc d i p : sized d p -> sized d (rinc i p).
Proof. intros H. apply (Forall_rinc (fun m => length m = d) (fun m => length m = d) i p H). intros m L. rewrite inc_length. exact L. Qed.
Lemma curl_comp_value n P H S i j k v : triple i j k -> curl_parts n P H S ->
  reval (curl_comp P H curl_sign S i j k) v = reval (P j) v + v i * v k * (curl_sign j i * reval (H i) v + curl_sign j k * reval (H k) v) + reval (rdiff j S) v.
Proof.
  intros (Hi & Hj & Hk & _) HP. destruct (parts_sized n P H S i Hi HP) as (_ & Si & _). destruct (parts_sized n P H S k Hk HP) as (_ & Sk & _). unfold curl_comp. rewrite !reval_app.
  assert (Q : sized 3 (rscale (curl_sign j i) (H i) ++ rscale (curl_sign j k) (H k))) by (apply Forall_app; split; apply sized_scaled; assumption).
  rewrite (reval_rinc 3 i), (reval_rinc 3 k) by (try assumption; apply sized_rinc; assumption). rewrite reval_app, !reval_rscale. ring.
Qed.
Lemma curl_to_parts n f : scurl_space3 n f -> exists P H S, curl_parts n P H S /\ forall i j k v, triple i j k -> f (j, v) = reval (curl_comp P H curl_sign S i j k) v.
Proof.
  intros (p & h1 & h2 & h3 & s & g & Hp & (H1 & F1 & E1) & (H2 & F2 & E2) & (H3 & F3 & E3) & (S & FS & ES) & HG & E0 & E1' & E2' & _).
  destruct (Hp 0%nat ltac:(lia)) as (P0 & FP0 & EP0). destruct (Hp 1%nat ltac:(lia)) as (P1 & FP1 & EP1). destruct (Hp 2%nat ltac:(lia)) as (P2 & FP2 & EP2).
  set (P := fun c => match c with O => P0 | S O => P1 | _ => P2 end). set (H := fun c => match c with O => H1 | S O => H2 | _ => H3 end). exists P, H, S.
  assert (CP : curl_parts n P H S).
  { split; [|split; [|exact FS]]; intros c Hc; (destruct c as [|[|[|c]]]; [| | |lia]); assumption. }
  split; [exact CP|]. intros i j k v T. rewrite (curl_comp_value n P H S i j k v T CP). assert (G : forall c, (c < 3)%nat -> reval (rdiff c S) v = g c v).
  { intros c Hc. apply (is_partial_unique c s v); [|apply HG, Hc]. pose proof (reval_partial c S v) as Q. unfold is_partial in *. eapply derivable_pt_lim_ext; [|exact Q]. intros t. symmetry. apply ES. }
  unfold triple in T. rewrite G by lia. destruct i as [|[|[|i]]], j as [|[|[|j]]], k as [|[|[|k]]]; try lia; cbn [P H curl_sign]; rewrite ?E0, ?E1', ?E2', ?EP0, ?EP1, ?EP2, ?E1, ?E2, ?E3; ring.
Qed.

(** * The terms that cancel *)
Lemma cut_coef j n (F : sfun) q i k m : triple i j k -> sized 3 q -> (forall v, F v = reval q v) ->
  Forall (fun t => length (snd t) = 3%nat /\ ((2 <= nth i (snd t) 0)%nat -> (nth j (snd t) 0 + nth k (snd t) 0 < n)%nat)) q ->
  (forall v, v i = 0 -> F v = 0) -> (forall v, v i = 1 -> F v = 0) -> length m = 3%nat -> nth i m 0%nat = 1%nat -> (nth j m 0 + nth k m 0 = n)%nat -> coef q m = 0.
Proof.
  intros T SQ E HQ Z0 Z1 L Mi Mr. assert (T' := T). destruct T' as (Hi & Hj & Hk & Hij & Hjk & Hik). set (ok := fun m => length m = 3%nat /\ ((2 <= nth i m 0)%nat -> (nth j m 0 + nth k m 0 < n)%nat)).
  destruct (poly_ends 3 ok i F Hi (fun m H => proj1 H)) as (g & (G & HG & EG) & Eg); [exists q; split; [exact HQ|exact E]|exact Z0|exact Z1|].
  assert (SG : sized 3 G) by (apply (Forall_sized (lowered 3 i 2 ok) 3 G HG); intros m' H; apply H).
  assert (Q : coef q m = coef (rinc i G ++ rscale (-1) (rinc i (rinc i G))) m).
  { apply (coef_unique 3); [exact SQ| | |exact L].
    - apply Forall_app. split; [|apply sized_scaled, sized_rinc]; apply sized_rinc, SG.
    - intros v. rewrite <- E, Eg, EG, reval_app, reval_rscale, !(reval_rinc 3 i) by (try assumption; apply sized_rinc, SG). ring. }
  rewrite Q, coef_app, coef_rscale, !(coef_rinc 3 i) by (try assumption; try (rewrite dec_length; assumption); apply sized_rinc, SG). rewrite nth_dec, Nat.eqb_refl, Mi. cbn [Nat.eqb Nat.sub].
  rewrite (coef_outside (lowered 3 i 2 ok) G (dec_at i m) HG); [ring|]. intros (_ & m' & [_ O] & _ & B & R). pose proof (R j ltac:(lia)) as Rj. pose proof (R k ltac:(lia)) as Rk. rewrite !nth_dec in *. rewrite (proj2 (Nat.eqb_neq j i)) in Rj by lia. rewrite (proj2 (Nat.eqb_neq k i)) in Rk by lia. rewrite Nat.eqb_refl in B. lia.
Qed.
Lemma dec_commute i j m : dec_at i (dec_at j m) = dec_at j (dec_at i m).
Proof. revert i j. induction m as [|e m IH]; intros [|i] [|j]; cbn; try reflexivity. rewrite IH. reflexivity. Qed.
Lemma comp_coef n P H S i j k M : triple i j k -> curl_parts n P H S -> length M = 3%nat -> nth i M 0%nat = 1%nat -> (2 <= nth j M 0)%nat -> (2 <= nth k M 0)%nat -> (nth j M 0 + nth k M 0 = n + 1)%nat ->
  coef (curl_comp P H curl_sign S i j k) (dec_at j M) = curl_sign j i * coef (H i) (dec_at j (dec_at k (dec_at i M))) + INR (nth j M 0%nat) * coef S M.
Proof.
  intros T HP L Mi Mj Mk Ms. assert (T' := T). destruct T' as (Hi & Hj & Hk & Hij & Hjk & Hik). destruct (parts_sized n P H S j Hj HP) as (Sp & _ & SS). destruct (parts_sized n P H S i Hi HP) as (_ & Si & _). destruct (parts_sized n P H S k Hk HP) as (_ & Sk & _).
  assert (Q : sized 3 (rscale (curl_sign j i) (H i) ++ rscale (curl_sign j k) (H k))) by (apply Forall_app; split; apply sized_scaled; assumption).
  unfold curl_comp. rewrite !coef_app. rewrite (coef_rinc 3 i), (coef_rinc 3 k), (coef_rdiff 3 j) by (try assumption; try (apply sized_rinc, Q); rewrite !dec_length; exact L).
  rewrite !nth_dec, Nat.eqb_refl, (proj2 (Nat.eqb_neq i j)), (proj2 (Nat.eqb_neq k j)), (proj2 (Nat.eqb_neq k i)) by lia. rewrite !Nat.sub_0_r, Mi, (proj2 (Nat.eqb_neq 1 0)), (proj2 (Nat.eqb_neq (nth k M 0%nat) 0)) by lia.
  rewrite inc_dec by lia. replace (Datatypes.S (nth j M 0%nat - 1)) with (nth j M 0%nat) by lia. rewrite coef_app, !coef_rscale. destruct HP as (HP & HH & _).
  rewrite (coef_outside (fun m => length m = 3%nat /\ (mdeg m <= n)%nat) (P j) (dec_at j M) (HP j Hj)).
  2: { intros [L' D]. rewrite (triple_deg i j k _ T L'), !nth_dec, Nat.eqb_refl, (proj2 (Nat.eqb_neq i j)), (proj2 (Nat.eqb_neq k j)) in D by lia. lia. }
  rewrite (coef_outside (fun m => length m = 3%nat /\ mdeg m = (n - 1)%nat /\ nth k m 0%nat = 0%nat) (H k) _ (HH k Hk)).
  2: { intros (_ & _ & D). rewrite !nth_dec, Nat.eqb_refl, (proj2 (Nat.eqb_neq k i)), (proj2 (Nat.eqb_neq k j)) in D by lia. lia. }
  replace (dec_at k (dec_at i (dec_at j M))) with (dec_at j (dec_at k (dec_at i M))) by (rewrite (dec_commute i j), (dec_commute k j); reflexivity). ring.
Qed.
Lemma comp_cut n P H S i j k : (2 <= n)%nat -> triple i j k -> curl_parts n P H S ->
  Forall (fun t => length (snd t) = 3%nat /\ ((2 <= nth i (snd t) 0)%nat -> (nth j (snd t) 0 + nth k (snd t) 0 < n)%nat)) (curl_comp P H curl_sign S i j k).
Proof.
  intros Hn T HP. assert (T' := T). destruct T' as (Hi & Hj & Hk & Hij & Hjk & Hik).
  apply (curl_comp_forall n P H S i j k (fun m => length m = 3%nat /\ ((2 <= nth i m 0)%nat -> (nth j m 0 + nth k m 0 < n)%nat)) T HP); intros m L; [lia|lia|].
  intros Q _. split; [exact L|]. intros Mi. rewrite (triple_superlinear i j k _ T) in Q by (rewrite inc_length; exact L). rewrite !nth_inc, Nat.eqb_refl, (proj2 (Nat.eqb_neq i j)), (proj2 (Nat.eqb_neq k j)) in Q by lia. rewrite !Nat.add_0_r in Q.
  pose proof (sl_cases (nth i m 0%nat)). pose proof (sl_cases (nth k m 0%nat)). pose proof (sl_cases (nth j m 0 + 1)%nat). lia.
Qed.
Definition cancelling (n : nat) (M : mono) : bool :=
  ((length M =? 3) && existsb (fun i => let j := (i + 1) mod 3 in let k := (i + 2) mod 3 in (nth i M 0 =? 1) && (2 <=? nth j M 0) && (2 <=? nth k M 0) && (nth j M 0 + nth k M 0 =? n + 1)) [0; 1; 2])%nat.
Lemma cancelling_true n M : cancelling n M = true -> length M = 3%nat /\ exists i j k, triple i j k /\ nth i M 0%nat = 1%nat /\ (2 <= nth j M 0)%nat /\ (2 <= nth k M 0)%nat /\ (nth j M 0 + nth k M 0 = n + 1)%nat.
Proof.
  unfold cancelling. rewrite andb_true_iff. intros [L Q]. apply Nat.eqb_eq in L. split; [exact L|]. apply existsb_exists in Q. destruct Q as (i & Hi & Q). cbv zeta in Q. rewrite !andb_true_iff, !Nat.leb_le, !Nat.eqb_eq in Q.
  exists i, ((i + 1) mod 3)%nat, ((i + 2) mod 3)%nat. split; [|tauto]. unfold triple. destruct Hi as [<-|[<-|[<-|[]]]]; cbn; lia.
Qed.
Lemma cancelling_false n M i j k : cancelling n M = false -> triple i j k -> length M = 3%nat -> nth i M 0%nat = 1%nat -> (2 <= nth j M 0)%nat -> (2 <= nth k M 0)%nat -> (nth j M 0 + nth k M 0 <> n + 1)%nat.
Proof.
  intros Q T L Mi Mj Mk Ms. assert (C : cancelling n M = true); [|congruence]. unfold cancelling. rewrite L. cbn [Nat.eqb andb]. apply existsb_exists. exists i. unfold triple in T. split; [destruct i as [|[|[|i]]]; cbn; lia|].
  cbv zeta. rewrite !andb_true_iff, !Nat.leb_le, !Nat.eqb_eq. assert (C : (((i + 1) mod 3 = j /\ (i + 2) mod 3 = k) \/ ((i + 1) mod 3 = k /\ (i + 2) mod 3 = j))%nat) by (destruct i as [|[|[|i]]], j as [|[|[|j]]], k as [|[|[|k]]]; try lia; cbn; lia).
  destruct C as [[-> ->]|[-> ->]]; lia.
Qed.
Lemma cancel n P H S (f : component_fn) : curl_parts n P H S -> (forall i j k v, triple i j k -> f (j, v) = reval (curl_comp P H curl_sign S i j k) v) ->
  (forall c i v, (c < 3)%nat -> (i < 3)%nat -> i <> c -> v i = 0 \/ v i = 1 -> f (c, v) = 0) -> forall M, cancelling n M = true -> coef S M = 0.
Proof.
  intros HP HE Z M HM. destruct (cancelling_true n M HM) as (L & i & j & k & T & Mi & Mj & Mk & Ms). assert (Hn : (2 <= n)%nat) by lia.
  assert (T' : triple i k j) by (unfold triple in *; lia). assert (T'' := T). destruct T'' as (Hi & Hj & Hk & Hij & Hjk & Hik).
  assert (G : forall j k, triple i j k -> (2 <= nth j M 0)%nat -> (2 <= nth k M 0)%nat -> (nth j M 0 + nth k M 0 = n + 1)%nat -> curl_sign j i * coef (H i) (dec_at j (dec_at k (dec_at i M))) + INR (nth j M 0%nat) * coef S M = 0).
  { intros j' k' T1 Mj' Mk' Ms'. assert (T2 := T1). destruct T2 as (_ & Hj' & Hk' & Hij' & Hjk' & Hik'). rewrite <- (comp_coef n P H S i j' k' M T1 HP L Mi Mj' Mk' Ms').
    apply (cut_coef j' n (fun v => f (j', v)) _ i k' _ T1); [apply (curl_comp_sized n), HP; exact T1|intros v; apply HE, T1|apply comp_cut; assumption| | |rewrite dec_length; exact L| |].
    - intros v Hv. apply (Z j' i v); [exact Hj'|exact Hi|lia|tauto].
    - intros v Hv. apply (Z j' i v); [exact Hj'|exact Hi|lia|tauto].
    - rewrite nth_dec, (proj2 (Nat.eqb_neq i j')) by lia. lia.
    - rewrite !nth_dec, Nat.eqb_refl, (proj2 (Nat.eqb_neq k' j')) by lia. lia. }
  pose proof (G j k T Mj Mk Ms) as G1. pose proof (G k j T' Mk Mj ltac:(lia)) as G2. rewrite (dec_commute k j), (curl_sign_opposite i k j T') in G2.
  assert (Q : (INR (nth j M 0%nat) + INR (nth k M 0%nat)) * coef S M = 0) by lra. rewrite <- plus_INR, Ms in Q. apply Rmult_integral in Q. destruct Q as [Q|Q]; [|exact Q]. exfalso. revert Q. apply not_0_INR. lia.
Qed.

(** * Fields that vanish *)
Definition ok_inner (n i j k : nat) (m : mono) : Prop := length m = 3%nat /\ (mdeg m <= n + 4)%nat /\ ((2 <= nth i m 0)%nat -> (2 <= nth k m 0)%nat -> (mdeg m <= n)%nat).
Lemma comp_inner n P H S i j k : (1 <= n)%nat -> triple i j k -> curl_parts n P H S -> (forall M, In M (map snd S) -> cancelling n M = false) ->
  Forall (fun t => ok_inner n i j k (snd t)) (curl_comp P H curl_sign S i j k).
Proof.
  intros Hn T HP HC. assert (T' := T). destruct T' as (Hi & Hj & Hk & Hij & Hjk & Hik). apply (curl_comp_forall n P H S i j k (ok_inner n i j k) T HP); intros m L; unfold ok_inner; rewrite (triple_deg i j k m T L); [lia|lia|].
  intros Q I. specialize (HC _ I). assert (L' : length (inc_at j m) = 3%nat) by (rewrite inc_length; exact L). rewrite (triple_superlinear i j k _ T L') in Q. pose proof (cancelling_false n _ j i k HC ltac:(unfold triple; lia) L') as C.
  rewrite !nth_inc, Nat.eqb_refl, (proj2 (Nat.eqb_neq i j)), (proj2 (Nat.eqb_neq k j)) in * by lia. rewrite !Nat.add_0_r in *.
  pose proof (sl_cases (nth i m 0%nat)). pose proof (sl_cases (nth k m 0%nat)). pose proof (sl_cases (nth j m 0 + 1)%nat). lia.
Qed.
Lemma inner_divided n i j k (F : sfun) : triple i j k -> poly_space (ok_inner n i j k) F -> (forall v, v i = 0 \/ v i = 1 -> F v = 0) -> (forall v, v k = 0 \/ v k = 1 -> F v = 0) ->
  exists h, poly_space (fun m => length m = 3%nat /\ (mdeg m + 4 <= n)%nat) h /\ forall v, F v = v i * (1 - v i) * (v k * (1 - v k)) * h v.
Proof.
  intros T HF Zi Zk. assert (T' := T). destruct T' as (Hi & Hj & Hk & Hij & Hjk & Hik).
  destruct (poly_ends 3 (ok_inner n i j k) i F Hi (fun m H => proj1 H) HF) as (h1 & H1 & E1); [intros v Hv; apply Zi; tauto|intros v Hv; apply Zi; tauto|].
  assert (D1 : degree_space 3 (n + 4) h1).
  { eapply poly_space_weaken; [|exact H1]. intros m (L & m' & (_ & D & _) & L' & B & R). split; [exact L|]. rewrite (triple_deg i j k m T L). rewrite (triple_deg i j k m' T L') in D. rewrite (R j), (R k) by lia. lia. }
  destruct (poly_ends 3 (lowered 3 i 2 (ok_inner n i j k)) k h1 Hk (fun m H => proj1 H) H1) as (h & Hh & E2).
  - apply (poly_zeros 3 (n + 4) i k 0 F h1 Hi Hk Hik D1 E1). intros v Hv. apply Zk. tauto.
  - apply (poly_zeros 3 (n + 4) i k 1 F h1 Hi Hk Hik D1 E1). intros v Hv. apply Zk. tauto.
  - exists h. split; [|intros v; rewrite E1, E2; ring]. eapply poly_space_weaken; [|exact Hh]. intros m (L & m1 & (L1 & m2 & (_ & _ & D) & L2 & B2 & R2) & _ & B1 & R1). split; [exact L|].
    rewrite (triple_deg i j k m T L). rewrite (triple_deg i j k m2 T L2) in D. pose proof (R1 i ltac:(lia)). pose proof (R1 j ltac:(lia)). pose proof (R2 j ltac:(lia)). pose proof (R2 k ltac:(lia)). lia.
Qed.
Lemma scurl_zero3 n f : (1 <= n)%nat -> scurl_space3 n f -> (forall c i v, (c < 3)%nat -> (i < 3)%nat -> i <> c -> v i = 0 \/ v i = 1 -> f (c, v) = 0) ->
  (forall psi : nat -> sfun, (4 <= n)%nat -> (forall c, (c < 3)%nat -> P_space 3 (n - 4) (psi c)) -> iterated_integral (blims 3) (fun v => sum 3 (fun c => f (c, v) * psi c v)) (fun _ => 0) 0) ->
  forall c v, (c < 3)%nat -> f (c, v) = 0.
Proof.
  intros Hn Hf Z HI. destruct (curl_to_parts n f Hf) as (P & H & S & HP & HE). set (S' := filter (fun t => negb (cancelling n (snd t))) S).
  assert (HP' : curl_parts n P H S') by (destruct HP as (A & B & C); split; [exact A|split; [exact B|]]; apply Forall_forall; intros t Ht; apply filter_In in Ht; rewrite Forall_forall in C; apply C, Ht).
  assert (HE' : forall i j k v, triple i j k -> f (j, v) = reval (curl_comp P H curl_sign S' i j k) v).
  { intros i j k v T. rewrite (HE i j k v T), (curl_comp_value n P H S i j k v T HP), (curl_comp_value n P H S' i j k v T HP'). f_equal. apply (is_partial_unique j (reval S) v); [apply reval_partial|].
    pose proof (reval_partial j S' v) as Q. unfold is_partial in *. eapply derivable_pt_lim_ext; [|exact Q]. intros t. symmetry. apply drop_terms. apply (cancel n P H S f HP HE Z). }
  assert (HC : forall M, In M (map snd S') -> cancelling n M = false).
  { intros M HM. apply in_map_iff in HM. destruct HM as (t & <- & Ht). apply filter_In in Ht. destruct Ht as [_ Ht]. apply negb_true_iff, Ht. }
  set (i_ := fun c : nat => match c with O => 1%nat | _ => 0%nat end). set (k_ := fun c : nat => match c with O => 2%nat | S O => 2%nat | _ => 1%nat end).
  assert (TT : forall c, (c < 3)%nat -> triple (i_ c) c (k_ c)) by (intros c Hc; unfold triple; destruct c as [|[|[|c]]]; cbn; lia).
  assert (D : forall c, (c < 3)%nat -> exists h, poly_space (fun m => length m = 3%nat /\ (mdeg m + 4 <= n)%nat) h /\ forall v, f (c, v) = v (i_ c) * (1 - v (i_ c)) * (v (k_ c) * (1 - v (k_ c))) * h v).
  { intros c Hc. pose proof (TT c Hc) as T. apply (inner_divided n (i_ c) c (k_ c) (fun v => f (c, v)) T).
    - exists (curl_comp P H curl_sign S' (i_ c) c (k_ c)). split; [apply comp_inner; assumption|intros v; apply HE', T].
    - intros v Hv. unfold triple in T. apply (Z c (i_ c) v); [exact Hc|lia|lia|exact Hv].
    - intros v Hv. unfold triple in T. apply (Z c (k_ c) v); [exact Hc|lia|lia|exact Hv]. }
  destruct (finite_choice (fun _ : point => 0) 3 (fun c h => poly_space (fun m => length m = 3%nat /\ (mdeg m + 4 <= n)%nat) h /\ forall v, f (c, v) = v (i_ c) * (1 - v (i_ c)) * (v (k_ c) * (1 - v (k_ c))) * h v) D) as (h & Hh).
  destruct (Nat.lt_ge_cases n 4) as [H4|H4].
  - intros c v Hc. destruct (Hh c Hc) as [(p & Hp & Ep) E]. rewrite E. destruct p as [|t p]; [rewrite Ep; cbn; ring|]. inversion Hp as [|t' p' [_ Ht] _]; subst. lia.
  - assert (D4 : forall c, (c < 3)%nat -> degree_space 3 (n - 4) (h c)) by (intros c Hc; eapply poly_space_weaken; [|apply (Hh c Hc)]; intros m [L Q]; split; [exact L|lia]).
    apply (weighted_zero 3 n (fun c v => f (c, v)) (fun c v => v (i_ c) * (1 - v (i_ c)) * (v (k_ c) * (1 - v (k_ c)))) h ltac:(lia)).
    + intros c Hc. apply (degree_weaken 3 (n - 4)); [lia|apply D4, Hc].
    + intros c Hc. pose proof (TT c Hc) as T. unfold triple in T. apply (poly_space_ext _ (fun v => v (i_ c) * (1 - v (i_ c)) * (v (k_ c) * (1 - v (k_ c))) * h c v)); [intros v; symmetry; apply (Hh c Hc)|].
      apply (degree_weaken 3 (1 + 1 + (1 + 1) + (n - 4))); [lia|].
      assert (B : forall a, (a < 3)%nat -> degree_space 3 (1 + 1) (fun v => v a * (1 - v a))) by (intros a Ha; apply (degree_mul 3 1 1 (fun v => v a) (fun v => 1 - v a)); [apply degree_var, Ha|apply (degree_minus 3 1 (fun _ => 1) (fun v => v a)); [apply degree_const|apply degree_var, Ha]]).
      apply (degree_mul 3 (1 + 1 + (1 + 1)) (n - 4) (fun v => v (i_ c) * (1 - v (i_ c)) * (v (k_ c) * (1 - v (k_ c)))) (h c)); [|apply D4, Hc]. apply (degree_mul 3 (1 + 1) (1 + 1) (fun v => v (i_ c) * (1 - v (i_ c))) (fun v => v (k_ c) * (1 - v (k_ c)))); apply B; lia.
    + intros c v Hc. apply (Hh c Hc).
    + intros c v Hc Hv. pose proof (TT c Hc) as T. unfold triple in T. pose proof (inside_box 3 v (i_ c) ltac:(lia) Hv ltac:(lia)). pose proof (inside_box 3 v (k_ c) ltac:(lia) Hv ltac:(lia)). apply Rmult_lt_0_compat; apply Rmult_lt_0_compat; lra.
    + apply (HI h H4). exact D4.
Qed.
