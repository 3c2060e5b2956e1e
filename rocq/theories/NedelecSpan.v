(** The Nedelec enrichment spans every homogeneous field orthogonal to x. *)
From Coq Require Import String Arith ZArith Reals Lia Lra List.
From Verif Require Import Base PolyLib PolySetsModel PolySetsProofs PolyVec RTNedelecProofs.
Import ListNotations.
Open Scope R_scope.

(** Fields with real polynomial components. *)
Definition rveval (P : list rpoly) : vfun := fun v => map (fun p => reval p v) P.

Definition rhomogeneous (d n : nat) (p : rpoly) : Prop :=
  Forall (fun t => length (snd t) = d /\ mdeg (snd t) = n) p.

(** S_n = homogeneous fields of degree n with x . P(x) = 0 everywhere *)
Definition nedelec_S (d n : nat) (P : list rpoly) : Prop :=
  length P = d /\ Forall (rhomogeneous d n) P /\ forall v, x_dot d (rveval P) v = 0.

(** ** span closure *)
Lemma vin_span_zero fs : vin_span fs (fun _ => []).
Proof.
  exists (repeat 0 (length fs)). split; [apply repeat_length|]. intros c v. rewrite lincomb_zero.
  unfold vcomp. destruct c; reflexivity.
Qed.

Definition vadd (f g : vfun) : vfun := fun v =>
  map (fun i => vcomp f i v + vcomp g i v) (seq 0 (max (length (f v)) (length (g v)))).
Definition vscale (a : R) (f : vfun) : vfun := fun v => map (Rmult a) (f v).

Lemma vcomp_vadd f g c v : vcomp (vadd f g) c v = vcomp f c v + vcomp g c v.
Proof.
  unfold vadd. unfold vcomp at 1. set (N := max (length (f v)) (length (g v))).
  destruct (lt_dec c N) as [H|H].
  - rewrite nth_indep with (d' := (fun i => vcomp f i v + vcomp g i v) 0%nat) by (rewrite map_length, seq_length; exact H).
    rewrite (map_nth (fun i => vcomp f i v + vcomp g i v) (seq 0 N) 0%nat c). rewrite seq_nth by exact H. reflexivity.
  - rewrite nth_overflow by (rewrite map_length, seq_length; lia).
    unfold vcomp. rewrite !nth_overflow by (subst N; lia). lra.
Qed.

Lemma vcomp_vscale a f c v : vcomp (vscale a f) c v = a * vcomp f c v.
Proof.
  unfold vscale, vcomp. rewrite <- (map_nth (Rmult a)). rewrite Rmult_0_r. reflexivity.
Qed.

Lemma vin_span_member fs f : In f fs -> vin_span fs f.
Proof.
  induction fs as [|g fs IH]; intros H; [contradiction|]. destruct H as [->|H].
  - exists (1 :: repeat 0 (length fs)). split; [simpl; rewrite repeat_length; reflexivity|].
    intros c v. simpl. rewrite lincomb_zero. lra.
  - destruct (IH H) as [cs [Hl Hv]]. exists (0 :: cs). split; [simpl; lia|].
    intros c v. simpl. rewrite Hv. lra.
Qed.

Lemma vin_span_add fs f g : vin_span fs f -> vin_span fs g -> vin_span fs (vadd f g).
Proof.
  intros [cs [Hc Hcv]] [ds [Hd Hdv]].
  exists (map (fun p => fst p + snd p) (combine cs ds)). split.
  - rewrite map_length, combine_length. lia.
  - intros c v. rewrite lincomb_add by lia. rewrite vcomp_vadd, Hcv, Hdv. reflexivity.
Qed.

Lemma vin_span_scale fs a f : vin_span fs f -> vin_span fs (vscale a f).
Proof.
  intros [cs [Hc Hcv]]. exists (map (Rmult a) cs). split; [rewrite map_length; exact Hc|].
  intros c v. rewrite lincomb_scale, vcomp_vscale, Hcv. reflexivity.
Qed.

Lemma vin_span_ext fs f g : (forall c v, vcomp f c v = vcomp g c v) -> vin_span fs f -> vin_span fs g.
Proof. intros H [cs [Hc Hv]]. exists cs. split; [exact Hc|]. intros c v. rewrite <- H. apply Hv. Qed.

(** ** continuity in one variable and cancellation *)
Lemma reval_derivable p i v : exists l, derivable_pt_lim (fun t => reval p (upd v i t)) (v i) l.
Proof.
  induction p as [|[c m] p [l IH]]; simpl.
  - exists 0. apply derivable_pt_lim_const.
  - eexists. apply (derivable_pt_lim_plus (fun t => c * meval m (upd v i t)) (fun t => reval p (upd v i t))); [|exact IH].
    apply (derivable_pt_lim_scal (fun t => meval m (upd v i t)) c). apply meval_partial.
Qed.

Lemma meval_ext m v w : (forall j, v j = w j) -> meval m v = meval m w.
Proof. intros H. apply meval_from_ext. intros j _. apply H. Qed.
Lemma reval_ext p v w : (forall j, v j = w j) -> reval p v = reval p w.
Proof. intros H. induction p as [|[c m] p IH]; simpl; [reflexivity|]. rewrite IH, (meval_ext m v w H). reflexivity. Qed.

Lemma mul_var_cancel i p : (forall v, v i * reval p v = 0) -> forall v, reval p v = 0.
Proof.
  intros H v. destruct (Req_dec (v i) 0) as [E|E].
  - set (f := fun t => reval p (upd v i t)).
    assert (Hf : f 0 = 0).
    { apply cont_zero_off0.
      - destruct (reval_derivable p i v) as [l Hl]. rewrite E in Hl.
        apply derivable_continuous_pt. exists l. exact Hl.
      - intros t Ht. specialize (H (upd v i t)). rewrite upd_same in H.
        apply Rmult_integral in H. destruct H; [contradiction|assumption]. }
    rewrite <- Hf. unfold f. apply reval_ext. intros j. rewrite <- E. symmetry. apply upd_self.
  - specialize (H v). apply Rmult_integral in H. destruct H; [contradiction|assumption].
Qed.

Definition rneg (p : rpoly) : rpoly := rscale (-1) p.
Lemma reval_rneg p v : reval (rneg p) v = - reval p v.
Proof. unfold rneg. rewrite reval_rscale. lra. Qed.

Lemma rveval_comp P c v : vcomp (rveval P) c v = reval (nth c P []) v.
Proof.
  unfold vcomp, rveval. destruct (lt_dec c (length P)) as [H|H].
  - rewrite nth_indep with (d' := reval [] v) by (rewrite map_length; lia).
    apply (map_nth (fun p => reval p v) P [] c).
  - rewrite !nth_overflow by (rewrite ?map_length; lia). reflexivity.
Qed.

Definition pt3 (x y z : R) : point := fun i => match i with 0%nat => x | 1%nat => y | _ => z end.
Definition pt2 (x y : R) : point := fun i => match i with 0%nat => x | _ => y end.

(** ** two dimensions *)
Section TwoD.
Variable n : nat.
Variable X : list vpoly.
Hypothesis HX : forall a b, S (a + b) = n -> In [ [(1%Z, [a; S b])]; [((-1)%Z, [S a; b])] ] X.

Lemma ned2_step p : rhomogeneous 2 n p -> exists q k,
  vin_span (map veval X) (rveval [p ++ [(- k, [n; 0%nat])]; q]).
Proof.
  induction p as [|[c m] p IH]; intros Hp.
  - exists [], 0. apply vin_span_ext with (f := fun _ => []); [|apply vin_span_zero].
    intros k v. rewrite rveval_comp. destruct k as [|[|[|k]]]; unfold vcomp; simpl; lra.
  - apply Forall_cons_iff in Hp. destruct Hp as [[Hl Hd] Hp']. simpl in Hl, Hd. destruct (IH Hp') as (q & k & Hq).
    destruct m as [|a [|b [|? ?]]]; try discriminate. simpl in Hd.
    destruct b as [|b].
    + exists q, (c + k). apply vin_span_ext with (2 := Hq). intros i v.
      rewrite !rveval_comp. destruct i as [|[|i]]; [|reflexivity..]. simpl. rewrite !reval_app. simpl.
      replace (a + 0)%nat with a by lia. replace n with a by lia. lra.
    + exists ((- c, [S a; b]) :: q), k.
      apply vin_span_ext with (f := vadd (vscale c (veval [ [(1%Z, [a; S b])]; [((-1)%Z, [S a; b])] ])) (rveval [p ++ [(- k, [n; 0%nat])]; q])).
      * intros i v. rewrite vcomp_vadd, vcomp_vscale, vcomp_veval, !rveval_comp.
        destruct i as [|[|[|i]]]; simpl; lra.
      * apply vin_span_add; [|exact Hq]. apply vin_span_scale. apply vin_span_member. apply in_map. apply HX. lia.
Qed.
End TwoD.

Lemma x_dot_ext d f g v : (forall c, vcomp f c v = vcomp g c v) -> x_dot d f v = x_dot d g v.
Proof. intros H. unfold x_dot. f_equal. apply map_ext. intros c. rewrite H. reflexivity. Qed.

Lemma x_dot_span d X f : (forall F v, In F X -> x_dot d (veval F) v = 0) ->
  vin_span (map veval X) f -> forall v, x_dot d f v = 0.
Proof.
  intros HX (cs & Hl & Hf) v.
  assert (E : x_dot d f v = fold_right Rplus 0 (map (fun c => v c * lincomb cs (map (fun g => vcomp g c) (map veval X)) v) (seq 0 d))).
  { unfold x_dot. f_equal. apply map_ext. intros c. rewrite Hf. reflexivity. }
  rewrite E. clear E Hf. rewrite map_length in Hl. revert cs Hl. induction X as [|F X' IH]; intros cs Hl.
  - destruct cs; [|discriminate]. simpl. generalize (seq 0 d). induction l; simpl; [reflexivity|]. rewrite IHl. lra.
  - destruct cs as [|c cs]; [discriminate|]. simpl.
    assert (Hsplit : forall l, fold_right Rplus 0 (map (fun i => v i * (c * vcomp (veval F) i v + lincomb cs (map (fun g => vcomp g i) (map veval X')) v)) l) =
       c * fold_right Rplus 0 (map (fun i => v i * vcomp (veval F) i v) l) +
       fold_right Rplus 0 (map (fun i => v i * lincomb cs (map (fun g => vcomp g i) (map veval X')) v) l)).
    { induction l as [|i l IHl]; simpl; [lra|]. rewrite IHl. lra. }
    rewrite Hsplit. rewrite IH; [|intros G w HG; apply HX; right; exact HG|simpl in Hl; lia].
    fold (x_dot d (veval F) v). rewrite HX by (left; reflexivity). lra.
Qed.

Lemma pow0_pos n : (0 < n)%nat -> 0 ^ n = 0.
Proof. intros H. destruct n; [lia|]. simpl. lra. Qed.

Lemma nedelec2_span n X P : (1 <= n)%nat -> Hcurl_polynomials 2 2 n = Ok X -> nedelec_S 2 n P ->
  vin_span (map veval X) (rveval P).
Proof.
  intros Hn HX (Hlen & Hhom & Hdot).
  destruct (Hcurl_polynomials_spec 2 n ltac:(lia)) as (X' & HX' & _ & _ & HXdot & _).
  rewrite HX in HX'. injection HX' as <-.
  assert (Hmem : forall a b, S (a + b) = n -> In [ [(1%Z, [a; S b])]; [((-1)%Z, [S a; b])] ] X).
  { intros a b E. unfold Hcurl_polynomials in HX. cbn [Nat.eqb negb] in HX. injection HX as <-.
    apply Hcurl2_members. exists a, b. auto. }
  destruct P as [|p1 [|p2 [|? ?]]]; try discriminate.
  apply Forall_cons_iff in Hhom. destruct Hhom as [Hp1 Hhom]. apply Forall_cons_iff in Hhom. destruct Hhom as [Hp2 _].
  destruct (ned2_step n X Hmem p1 Hp1) as (q & k & Hspan).
  pose proof (x_dot_span 2 X _ HXdot Hspan) as Hqdot.
  unfold x_dot in Hdot, Hqdot. cbn [seq map fold_right] in Hdot, Hqdot.
  assert (Hd : forall v, v 0%nat * reval p1 v + v 1%nat * reval p2 v = 0).
  { intros v. specialize (Hdot v). rewrite !rveval_comp in Hdot. cbn [nth] in Hdot. lra. }
  assert (Hq : forall v, v 0%nat * (reval p1 v - k * meval [n; 0%nat] v) + v 1%nat * reval q v = 0).
  { intros v. specialize (Hqdot v). rewrite !rveval_comp in Hqdot. cbn [nth] in Hqdot.
    rewrite reval_app in Hqdot. simpl in Hqdot. simpl. lra. }
  assert (Hk : k = 0).
  { pose proof (Hd (pt2 1 0)) as H1. pose proof (Hq (pt2 1 0)) as H2.
    unfold meval in H2. simpl in H1, H2. rewrite pow1 in H2. lra. }
  subst k.
  assert (Hpq : forall v, reval (p2 ++ rneg q) v = 0).
  { apply (mul_var_cancel 1). intros v. rewrite reval_app, reval_rneg. specialize (Hd v). specialize (Hq v).
    nra. }
  apply vin_span_ext with (2 := Hspan). intros i v. rewrite !rveval_comp.
  destruct i as [|[|i]]; cbn [nth].
  - rewrite reval_app. simpl. lra.
  - specialize (Hpq v). rewrite reval_app, reval_rneg in Hpq. lra.
  - destruct i; reflexivity.
Qed.

(** ** three dimensions *)
Section ThreeD.
Variable n : nat.
Variable X : list vpoly.
Hypothesis HA : forall a b c, S (a + b + c) = n -> In (nedA a b c) X.
Hypothesis HB : forall a b c, S (a + b + c) = n -> In (nedB a b c) X.
Hypothesis HC : forall a b, S (a + b) = n -> In (nedC a b) X.

Lemma ned3_step1 p : rhomogeneous 3 n p -> exists q r k, rhomogeneous 3 n q /\
  vin_span (map veval X) (rveval [p ++ [(- k, [n; 0; 0]%nat)]; q; r]).
Proof.
  induction p as [|[c m] p IH]; intros Hp.
  - exists [], [], 0. split; [constructor|]. apply vin_span_ext with (f := fun _ => []); [|apply vin_span_zero].
    intros k v. rewrite rveval_comp. destruct k as [|[|[|[|k]]]]; unfold vcomp; simpl; lra.
  - apply Forall_cons_iff in Hp. destruct Hp as [[Hl Hd] Hp']. simpl in Hl, Hd. destruct (IH Hp') as (q & r & k & Hqh & Hq).
    destruct m as [|a [|b [|e [|? ?]]]]; try discriminate. simpl in Hd.
    destruct e as [|e]; [destruct b as [|b]|].
    + exists q, r, (c + k). split; [exact Hqh|]. apply vin_span_ext with (2 := Hq). intros i v.
      rewrite !rveval_comp. destruct i as [|[|i]]; [|reflexivity..]. simpl. rewrite !reval_app. simpl.
      replace n with a by lia. lra.
    + exists ((- c, [S a; b; 0%nat]) :: q), r, k. split; [constructor; [simpl; lia|exact Hqh]|].
      apply vin_span_ext with (f := vadd (vscale c (veval (nedC a b))) (rveval [p ++ [(- k, [n; 0; 0]%nat)]; q; r])).
      * intros i v. rewrite vcomp_vadd, vcomp_vscale, vcomp_veval, !rveval_comp.
        destruct i as [|[|[|[|i]]]]; simpl; lra.
      * apply vin_span_add; [|exact Hq]. apply vin_span_scale. apply vin_span_member. apply in_map. apply HC. lia.
    + exists q, ((- c, [S a; b; e]) :: r), k. split; [exact Hqh|].
      apply vin_span_ext with (f := vadd (vscale c (veval (nedA a b e))) (rveval [p ++ [(- k, [n; 0; 0]%nat)]; q; r])).
      * intros i v. rewrite vcomp_vadd, vcomp_vscale, vcomp_veval, !rveval_comp.
        destruct i as [|[|[|[|i]]]]; simpl; lra.
      * apply vin_span_add; [|exact Hq]. apply vin_span_scale. apply vin_span_member. apply in_map. apply HA. lia.
Qed.

(* second component: everything except the terms free of z *)
Lemma ned3_step2 p : rhomogeneous 3 n p -> exists s r,
  Forall (fun t => nth 2 (snd t) 1%nat = 0%nat) s /\ Forall (fun t => length (snd t) = 3%nat) s /\
  vin_span (map veval X) (rveval [[]; p ++ rneg s; r]).
Proof.
  induction p as [|[c m] p IH]; intros Hp.
  - exists [], []. split; [constructor|]. split; [constructor|]. apply vin_span_ext with (f := fun _ => []); [|apply vin_span_zero].
    intros k v. rewrite rveval_comp. destruct k as [|[|[|[|k]]]]; unfold vcomp; simpl; lra.
  - apply Forall_cons_iff in Hp. destruct Hp as [[Hl Hd] Hp']. simpl in Hl, Hd. destruct (IH Hp') as (s & r & Hs & Hs3 & Hq).
    destruct m as [|a [|b [|e [|? ?]]]]; try discriminate. simpl in Hd.
    destruct e as [|e].
    + exists ((c, [a; b; 0%nat]) :: s), r. split; [constructor; [reflexivity|exact Hs]|]. split; [constructor; [reflexivity|exact Hs3]|].
      apply vin_span_ext with (2 := Hq). intros i v.
      rewrite !rveval_comp. destruct i as [|[|i]]; [reflexivity| |reflexivity]. cbn [nth].
      rewrite !reval_app, !reval_rneg. simpl. lra.
    + exists s, ((- c, [a; S b; e]) :: r). split; [exact Hs|]. split; [exact Hs3|].
      apply vin_span_ext with (f := vadd (vscale c (veval (nedB a b e))) (rveval [[]; p ++ rneg s; r])).
      * intros i v. rewrite vcomp_vadd, vcomp_vscale, vcomp_veval, !rveval_comp.
        destruct i as [|[|[|[|i]]]]; simpl; lra.
      * apply vin_span_add; [|exact Hq]. apply vin_span_scale. apply vin_span_member. apply in_map. apply HB. lia.
Qed.
End ThreeD.

Lemma reval_z_free s v : Forall (fun t => nth 2 (snd t) 1%nat = 0%nat) s ->
  Forall (fun t => length (snd t) = 3%nat) s -> forall t, reval s (upd v 2 t) = reval s v.
Proof.
  intros H H3 t. induction s as [|[c m] s IH]; simpl; [reflexivity|].
  inversion H; subst. inversion H3; subst. rewrite IH by assumption. f_equal. f_equal.
  destruct m as [|a [|b [|e [|? ?]]]]; try discriminate. simpl in *. subst.
  unfold meval. simpl. rewrite !upd_other by lia. reflexivity.
Qed.

Lemma nedelec3_span n X P : (1 <= n)%nat -> Hcurl_polynomials 3 3 n = Ok X -> nedelec_S 3 n P ->
  vin_span (map veval X) (rveval P).
Proof.
  intros Hn HX (Hlen & Hhom & Hdot).
  destruct (Hcurl_polynomials_spec 3 n ltac:(lia)) as (X' & HX' & _ & _ & HXdot & _).
  rewrite HX in HX'. injection HX' as <-.
  assert (HXe : X = hcurl3A n ++ hcurl3B n ++ hcurl3C n).
  { unfold Hcurl_polynomials in HX. cbn [Nat.eqb negb] in HX. injection HX as <-. reflexivity. }
  assert (HA : forall a b c, S (a + b + c) = n -> In (nedA a b c) X).
  { intros a b c E. rewrite HXe. apply hcurl3_in. left. exists a, b, c. auto. }
  assert (HB : forall a b c, S (a + b + c) = n -> In (nedB a b c) X).
  { intros a b c E. rewrite HXe. apply hcurl3_in. left. exists a, b, c. auto. }
  assert (HC : forall a b, S (a + b) = n -> In (nedC a b) X).
  { intros a b E. rewrite HXe. apply hcurl3_in. right. exists a, b. auto. }
  destruct P as [|p1 [|p2 [|p3 [|? ?]]]]; try discriminate.
  apply Forall_cons_iff in Hhom. destruct Hhom as [Hp1 Hhom].
  apply Forall_cons_iff in Hhom. destruct Hhom as [Hp2 Hhom].
  apply Forall_cons_iff in Hhom. destruct Hhom as [Hp3 _].
  destruct (ned3_step1 n X HA HC p1 Hp1) as (q & r & k & Hqh & Hspan).
  assert (Hd : forall v, v 0%nat * reval p1 v + v 1%nat * reval p2 v + v 2%nat * reval p3 v = 0).
  { intros v. specialize (Hdot v). unfold x_dot in Hdot. cbn [seq map fold_right] in Hdot.
    rewrite !rveval_comp in Hdot. cbn [nth] in Hdot. lra. }
  pose proof (x_dot_span 3 X _ HXdot Hspan) as Hqdot.
  assert (Hq : forall v, v 0%nat * (reval p1 v - k * meval [n; 0; 0]%nat v) + v 1%nat * reval q v + v 2%nat * reval r v = 0).
  { intros v. specialize (Hqdot v). unfold x_dot in Hqdot. cbn [seq map fold_right] in Hqdot.
    rewrite !rveval_comp in Hqdot. cbn [nth] in Hqdot. rewrite reval_app in Hqdot. simpl in Hqdot. simpl. lra. }
  assert (Hk : k = 0).
  { pose proof (Hd (pt3 1 0 0)) as H1. pose proof (Hq (pt3 1 0 0)) as H2.
    unfold meval in H2. simpl in H1, H2. rewrite pow1 in H2. lra. }
  subst k.
  (* second component *)
  assert (Hp2q : rhomogeneous 3 n (p2 ++ rneg q)).
  { unfold rhomogeneous. apply Forall_app. split; [exact Hp2|]. unfold rneg.
    apply (Forall_rscale (fun m => length m = 3%nat /\ mdeg m = n)). exact Hqh. }
  destruct (ned3_step2 n X HB (p2 ++ rneg q) Hp2q) as (s & r2 & Hs & Hs3 & Hspan2).
  pose proof (x_dot_span 3 X _ HXdot Hspan2) as Hsdot.
  assert (H2 : forall v, v 1%nat * (reval p2 v - reval q v - reval s v) + v 2%nat * reval r2 v = 0).
  { intros v. specialize (Hsdot v). unfold x_dot in Hsdot. cbn [seq map fold_right] in Hsdot.
    rewrite !rveval_comp in Hsdot. cbn [nth] in Hsdot. rewrite !reval_app, !reval_rneg in Hsdot. simpl in Hsdot.
    simpl. lra. }
  assert (H3 : forall v, v 1%nat * reval s v + v 2%nat * (reval p3 v - reval r v - reval r2 v) = 0).
  { intros v. specialize (Hd v). specialize (Hq v). specialize (H2 v). nra. }
  assert (Hs0 : forall v, reval s v = 0).
  { apply (mul_var_cancel 1). intros v. specialize (H3 (upd v 2 0)).
    rewrite upd_same, upd_other in H3 by lia. rewrite (reval_z_free s v Hs Hs3) in H3. lra. }
  assert (H4 : forall v, reval (p3 ++ rneg r ++ rneg r2) v = 0).
  { apply (mul_var_cancel 2). intros v. specialize (H3 v). rewrite Hs0 in H3.
    rewrite !reval_app, !reval_rneg. nra. }
  apply vin_span_ext with (f := vadd (rveval [p1 ++ [(- 0, [n; 0; 0]%nat)]; q; r]) (rveval [[]; (p2 ++ rneg q) ++ rneg s; r2])).
  - intros i v. rewrite vcomp_vadd, !rveval_comp. destruct i as [|[|[|i]]]; cbn [nth].
    + rewrite reval_app. simpl. lra.
    + rewrite !reval_app, !reval_rneg, Hs0. lra.
    + specialize (H4 v). rewrite !reval_app, !reval_rneg in H4. lra.
    + destruct i; simpl; lra.
  - apply vin_span_add; assumption.
Qed.
