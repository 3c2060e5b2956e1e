(** Divergence / curl of the serendipity enrichments. *)
From Coq Require Import String Arith ZArith Reals Lia Lra List.
From Verif Require Import Base PolyLib PolySetsModel PolySetsProofs PolyVec RTNedelecProofs NedelecSpan.
Import ListNotations.
Open Scope R_scope.

Lemma Hdiv_serendipity_3d n X F v : Hdiv_serendipity 3 3 n = Ok X -> In F X -> is_div 3 (veval F) v 0.
Proof.
  unfold Hdiv_serendipity. cbn [Nat.eqb negb]. intros H HF. injection H as <-.
  apply in_map_iff in HF. destruct HF as (A & <- & _). apply curl_div_free.
Qed.

(** In 2D the first field has divergence 2 (n+1) x^n. *)
Lemma Hdiv_serendipity_2d_div n v :
  is_div 2 (veval [ [(1%Z, [n + 1; 0]%nat)]; [(Z.of_nat (n + 1), [n; 1]%nat)] ]) v (2 * INR (n + 1) * v 0%nat ^ n).
Proof.
  replace (2 * INR (n + 1) * v 0%nat ^ n) with
    (zeval (zdiv 2 [ [(1%Z, [n + 1; 0]%nat)]; [(Z.of_nat (n + 1), [n; 1]%nat)] ]) v).
  - apply is_div_zdiv.
  - unfold zdiv. cbn [seq flat_map nth app zdiff map fst snd]. unfold zeval. cbn [fold_right fst snd nth dec_at].
    rewrite !mult_IZR, <- !INR_IZR_INZ. unfold meval. cbn [meval_from].
    replace (n + 1 - 1)%nat with n by lia. simpl. ring.
Qed.

Lemma Hdiv_serendipity_2d_bad n : exists X F, Hdiv_serendipity 2 2 n = Ok X /\ In F X /\
  (exists v, ~ is_div 2 (veval F) v 0) /\
  ((1 <= n)%nat -> ~ exists g, poly_space (complete_mono 2 (n - 1)) g /\ forall v, is_div 2 (veval F) v (g v)).
Proof.
  eexists. exists [ [(1%Z, [n + 1; 0]%nat)]; [(Z.of_nat (n + 1), [n; 1]%nat)] ].
  split; [reflexivity|]. split; [left; reflexivity|]. split.
  - exists (fun _ => 1). intros H.
    pose proof (is_div_unique 2 _ _ _ _ H (Hdiv_serendipity_2d_div n (fun _ => 1))) as E.
    rewrite pow1 in E. rewrite plus_INR in E. simpl in E. pose proof (pos_INR n). lra.
  - intros Hn (g & (p & Hp & Hg) & Hdiv).
    assert (Hz : forall v, reval ((2 * INR (n + 1), [n; 0%nat]) :: rneg p) v = 0).
    { intros v. simpl. change (fold_right _ _ _) with (reval (rneg p) v). rewrite reval_rneg, <- Hg.
      rewrite (is_div_unique 2 _ _ _ _ (Hdiv v) (Hdiv_serendipity_2d_div n v)).
      unfold meval. simpl. ring. }
    assert (E : coef ((2 * INR (n + 1), [n; 0%nat]) :: rneg p) [n; 0%nat] = 0).
    { apply (poly_identity 2); [|exact Hz|reflexivity]. constructor; [reflexivity|].
      unfold rneg. apply (Forall_rscale (fun m => length m = 2%nat)).
      apply Forall_impl with (2 := Hp). intros t [H _]. exact H. }
    simpl in E. destruct (mono_eq_dec [n; 0%nat] [n; 0%nat]); [|congruence].
    unfold rneg in E. rewrite coef_rscale in E.
    assert (E0 : coef p [n; 0%nat] = 0).
    { clear - Hp Hn. induction p as [|[c m] p IH]; simpl; [reflexivity|].
      apply Forall_cons_iff in Hp. destruct Hp as [[_ Hd] Hp]. rewrite IH by exact Hp.
      destruct (mono_eq_dec m [n; 0%nat]) as [->|]; [simpl in Hd; lia|lra]. }
    rewrite E0 in E. rewrite plus_INR in E. simpl in E. pose proof (pos_INR n). lra.
Qed.

(** * H(curl) *)
Lemma is_rot_formula F v : is_rot (veval F) v (zeval (zdiff 0 (nth 1 F [])) v - zeval (zdiff 1 (nth 0 F [])) v).
Proof.
  exists (zeval (zdiff 0 (nth 1 F [])) v), (zeval (zdiff 1 (nth 0 F [])) v).
  split; [apply vcomp_partial|split; [apply vcomp_partial|reflexivity]].
Qed.

Lemma is_rot_unique F v a b : is_rot F v a -> is_rot F v b -> a = b.
Proof.
  intros (a1 & a2 & H1 & H2 & ->) (b1 & b2 & H3 & H4 & ->).
  rewrite (is_partial_unique _ _ _ _ _ H1 H3), (is_partial_unique _ _ _ _ _ H2 H4). reflexivity.
Qed.

Lemma Hcurl_serendipity_2d_bad n : exists X F, Hcurl_serendipity 2 2 n = Ok X /\ In F X /\
  forall v, is_rot (veval F) v (- (2 * INR (n + 1) * v 0%nat ^ n)).
Proof.
  eexists. exists [ [(Z.of_nat (n + 1), [n; 1]%nat)]; [((-1)%Z, [n + 1; 0]%nat)] ].
  split; [reflexivity|]. split; [left; reflexivity|]. intros v.
  replace (- (2 * INR (n + 1) * v 0%nat ^ n)) with
    (zeval (zdiff 0 [((-1)%Z, [n + 1; 0]%nat)]) v - zeval (zdiff 1 [(Z.of_nat (n + 1), [n; 1]%nat)]) v).
  - apply (is_rot_formula [ [(Z.of_nat (n + 1), [n; 1]%nat)]; [((-1)%Z, [n + 1; 0]%nat)] ] v).
  - cbn [zdiff map fst snd]. unfold zeval. cbn [fold_right fst snd nth dec_at].
    rewrite !mult_IZR, <- !INR_IZR_INZ. unfold meval. cbn [meval_from].
    replace (n + 1 - 1)%nat with n by lia. simpl. ring.
Qed.

Lemma Hcurl_serendipity_2d_good n : exists X F, Hcurl_serendipity 2 2 n = Ok X /\ In F X /\
  forall v, is_rot (veval F) v 0.
Proof.
  eexists. exists [ [(1%Z, [0; n + 1]%nat)]; [(Z.of_nat (n + 1), [1; n]%nat)] ].
  split; [reflexivity|]. split; [right; left; reflexivity|]. intros v.
  replace 0 with
    (zeval (zdiff 0 [(Z.of_nat (n + 1), [1; n]%nat)]) v - zeval (zdiff 1 [(1%Z, [0; n + 1]%nat)]) v).
  - apply (is_rot_formula [ [(1%Z, [0; n + 1]%nat)]; [(Z.of_nat (n + 1), [1; n]%nat)] ] v).
  - cbn [zdiff map fst snd]. unfold zeval. cbn [fold_right fst snd nth dec_at].
    rewrite !mult_IZR, <- !INR_IZR_INZ. unfold meval. cbn [meval_from].
    replace (n + 1 - 1)%nat with n by lia. simpl. ring.
Qed.

(** In 3D: every member is curl free or orthogonal to the position vector, and the
    gradients of all serendipity monomials are present. *)
Lemma Hcurl_serendipity_3d n X F : Hcurl_serendipity 3 3 n = Ok X -> In F X ->
  (forall v, x_dot 3 (veval F) v = 0) \/
  (exists m, In m (serendipity_set_1d 3 (n + 1)) /\ F = vgrad [(1%Z, m)]).
Proof.
  unfold Hcurl_serendipity. cbn [Nat.eqb negb]. intros H HF.
  assert (E : X = (if (n =? 1)%nat then
        [ [ []; [(1%Z, [1; 0; 1]%nat)]; [((-1)%Z, [1; 1; 0]%nat)] ];
          [ [(1%Z, [0; 1; 1]%nat)]; []; [((-1)%Z, [1; 1; 0]%nat)] ] ]
      else
        flat_map (fun i =>
          [ [ [(1%Z, [i; 1; 1 + (n - 1 - i)]%nat)]; []; [((-1)%Z, [1 + i; 1; n - 1 - i]%nat)] ];
            [ []; [(1%Z, [1; i; 1 + (n - 1 - i)]%nat)]; [((-1)%Z, [1; 1 + i; n - 1 - i]%nat)] ];
            [ [(1%Z, [i; 1 + (n - 1 - i); 1]%nat)]; [((-1)%Z, [1 + i; n - 1 - i; 1]%nat)]; [] ] ])
          (range n)) ++ map (fun p => map (fun i => zdiff i [(1%Z, p)]) (range 3)) (serendipity_set_1d 3 (n + 1))).
  { injection H as <-. reflexivity. }
  subst X. clear H. apply in_app_iff in HF. destruct HF as [HF|HF].
  - left. intros v. destruct (n =? 1)%nat.
    + destruct HF as [<-|[<-|[]]]; eval_dot.
    + apply in_flat_map in HF. destruct HF as (i & Hi & [<-|[<-|[<-|[]]]]);
      generalize (n - 1 - i)%nat; intros q; eval_dot.
  - right. apply in_map_iff in HF. destruct HF as (m & <- & Hm). exists m. split; [exact Hm|reflexivity].
Qed.

Lemma Hcurl_serendipity_3d_gradients n X m : Hcurl_serendipity 3 3 n = Ok X ->
  length m = 3%nat -> (n + 1 < mdeg m)%nat -> (superlinear_degree m <= n + 1)%nat ->
  exists F, In F X /\ forall v, (forall i, (i < 3)%nat -> is_partial i (meval m) v (vcomp (veval F) i v)).
Proof.
  intros H Hl Hd Hs. exists (vgrad [(1%Z, m)]). split.
  - unfold Hcurl_serendipity in H. cbn [Nat.eqb negb] in H. injection H as <-.
    apply in_or_app. right. apply in_map_iff. exists m. split; [reflexivity|].
    apply serendipity_set_1d_in; [lia|]. auto.
  - intros v i Hi. rewrite vcomp_veval.
    assert (E : nth i (vgrad [(1%Z, m)]) [] = zdiff i [(1%Z, m)]).
    { destruct i as [|[|[|i]]]; [reflexivity..|lia]. }
    rewrite E. unfold is_partial.
    apply derivable_pt_lim_ext with (f := fun t => zeval [(1%Z, m)] (upd v i t)).
    + intros t. simpl. ring.
    + apply zeval_partial.
Qed.

Lemma rot_nonzero n (P : Prop) : 0 = - (2 * INR (n + 1) * 1 ^ n) -> P.
Proof. rewrite pow1, plus_INR. simpl. pose proof (pos_INR n). intros H1. exfalso. lra. Qed.
