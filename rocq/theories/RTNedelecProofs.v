(** Raviart-Thomas and Nedelec polynomial enrichments, serendipity fields. *)
From Coq Require Import String Arith ZArith Reals Lia Lra List.
From Verif Require Import Base PolyLib PolySetsModel PolySetsProofs PolyVec.
Import ListNotations.
Open Scope nat_scope.

(** first non-zero component and its first monomial *)
Fixpoint fpiv_from (k : nat) (F : vpoly) : nat * mono :=
  match F with
  | [] => (k, [])
  | [] :: F' => fpiv_from (S k) F'
  | ((_, m) :: _) :: _ => (k, m)
  end.
Definition fpiv := fpiv_from 0.

Lemma fpiv_from_nth F : forall k c z m, (forall j, j < c -> nth j F [] = []) ->
  nth c F [] = [(z, m)] -> fpiv_from k F = (k + c, m).
Proof.
  induction F as [|p F IH]; intros k c z m H1 H2; [destruct c; discriminate|].
  destruct c as [|c].
  - simpl in H2. subst. simpl. rewrite Nat.add_0_r. reflexivity.
  - pose proof (H1 0 ltac:(lia)) as E. simpl in E. subst. simpl.
    rewrite (IH (S k) c z m); [f_equal; lia| |exact H2].
    intros j Hj. apply (H1 (S j)). lia.
Qed.

Lemma fpiv_unit d c m F : c < d -> unit_field d c m F -> fpiv F = (c, m).
Proof.
  intros Hc [Hl H]. unfold fpiv. rewrite (fpiv_from_nth F 0 c 1%Z m); [reflexivity| |].
  - intros j Hj. rewrite H by lia. destruct (Nat.eqb_spec j c); [lia|reflexivity].
  - rewrite H by exact Hc. rewrite Nat.eqb_refl. reflexivity.
Qed.

Lemma vzcoef_unit d c m F k a : unit_field d c m F ->
  vzcoef k a F = if andb (k <? d) (k =? c) then (if mono_eq_dec m a then 1 else 0)%Z else 0%Z.
Proof.
  intros [Hl H]. unfold vzcoef. destruct (Nat.ltb_spec k d) as [Hk|Hk]; simpl.
  - rewrite H by exact Hk. destruct (k =? c); [|reflexivity]. simpl. destruct (mono_eq_dec m a); reflexivity.
  - rewrite nth_overflow by lia. reflexivity.
Qed.

Definition homogeneous (d n : nat) (F : vpoly) : Prop :=
  length F = d /\ Forall (Forall (fun t : Z * mono => length (snd t) = d /\ mdeg (snd t) = n)) F.

Lemma zcoef_wrong_degree p n m : Forall (fun t : Z * mono => mdeg (snd t) = n) p -> mdeg m <> n -> zcoef p m = 0%Z.
Proof.
  induction p as [|[c a] p IH]; intros H Hm; simpl; [reflexivity|]. inversion H; subst. simpl in *.
  destruct (mono_eq_dec a m) as [->|Hne]; [congruence|]. rewrite IH by assumption. reflexivity.
Qed.

Lemma vzcoef_homogeneous d n F k m : homogeneous d n F -> mdeg m <> n -> vzcoef k m F = 0%Z.
Proof.
  intros [Hl H] Hm. unfold vzcoef. destruct (lt_dec k (length F)) as [Hk|Hk].
  - rewrite Forall_forall in H. specialize (H (nth k F []) (nth_In F [] Hk)).
    apply (zcoef_wrong_degree _ n); [|exact Hm]. apply Forall_impl with (2 := H). tauto.
  - rewrite nth_overflow by lia. reflexivity.
Qed.

(** Adding homogeneous fields of degree n+1 with private pivots to the complete
    fields of degree n gives an independent set. *)
Lemma enriched_independent d n U X :
  lists_unit_fields U d (fun _ => complete_mono d n) -> NoDup X ->
  (forall F, In F X -> homogeneous d (S n) F /\ mdeg (snd (fpiv F)) = S n) ->
  private_pivots X fpiv d -> vindependent (map veval (U ++ X)).
Proof.
  intros [HUn HU] HX Hh Hp.
  assert (Hdis : forall F, In F U -> ~ In F X).
  { intros F HF HFX. apply HU in HF. destruct HF as (c & m & Hc & (_ & Hd) & Hu).
    destruct (Hh F HFX) as [Hhom _]. pose proof (vzcoef_homogeneous d (S n) F c m Hhom ltac:(lia)) as E.
    rewrite (vzcoef_unit _ _ _ _ _ _ Hu) in E.
    destruct (Nat.ltb_spec c d); [|lia]. rewrite Nat.eqb_refl in E. simpl in E.
    destruct (mono_eq_dec m m); [discriminate|congruence]. }
  apply (independent_by_pivots d (U ++ X) fpiv).
  - apply NoDup_app_intro; assumption.
  - apply Forall_app. split; apply Forall_forall; intros F HF.
    + apply HU in HF. destruct HF as (c & m & Hc & (Hl & _) & Hlen & Hu).
      apply Forall_forall. intros p Hpin. apply In_nth with (d := []) in Hpin.
      destruct Hpin as (j & Hj & <-). rewrite Hu by (rewrite <- Hlen; exact Hj). destruct (j =? c); [|constructor].
      constructor; [exact Hl|constructor].
    + destruct (Hh F HF) as [[_ H] _]. apply Forall_impl with (2 := H). intros p Hpp.
      apply Forall_impl with (2 := Hpp). tauto.
  - intros F HF. apply in_app_iff in HF. destruct HF as [HF|HF].
    + pose proof HF as HF'. apply HU in HF. destruct HF as (c & m & Hc & (Hl & Hd) & Hu).
      rewrite (fpiv_unit d c m F Hc Hu). simpl. split; [exact Hl|]. split.
      * rewrite (vzcoef_unit _ _ _ _ _ _ Hu).
        destruct (Nat.ltb_spec c d); [|lia]. rewrite Nat.eqb_refl. simpl.
        destruct (mono_eq_dec m m); [discriminate|congruence].
      * intros G HG Hne. apply in_app_iff in HG. destruct HG as [HG|HG].
        -- apply HU in HG. destruct HG as (c' & m' & Hc' & _ & Hu').
           rewrite (vzcoef_unit _ _ _ _ _ _ Hu').
           destruct (Nat.ltb_spec c d); [|lia]. simpl.
           destruct (Nat.eqb_spec c c') as [Ec|]; [|reflexivity]. rewrite <- Ec in Hu'.
           destruct (mono_eq_dec m' m) as [Em|]; [|reflexivity]. rewrite Em in Hu'. exfalso. apply Hne.
           apply (unit_field_unique d c m); assumption.
        -- destruct (Hh G HG) as [Hhom _]. apply (vzcoef_homogeneous d (S n)); [exact Hhom|lia].
    + destruct (Hp F HF) as (Hl & Hne & Hoth). destruct (Hh F HF) as [_ Hdeg].
      split; [exact Hl|]. split; [exact Hne|]. intros G HG HGF. apply in_app_iff in HG.
      destruct HG as [HG|HG]; [|apply Hoth; assumption].
      apply HU in HG. destruct HG as (c' & m' & Hc' & (_ & Hd') & Hu').
      rewrite (vzcoef_unit _ _ _ _ _ _ Hu').
      destruct (andb (fst (fpiv F) <? d) (fst (fpiv F) =? c')); [|reflexivity].
      destruct (mono_eq_dec m' (snd (fpiv F))) as [E|E]; [|reflexivity]. rewrite <- E in Hdeg. lia.
Qed.

Lemma polynomial_set_vector_ok d r n : 1 <= d <= 3 ->
  exists U, polynomial_set_vector d r n = Ok U /\ lists_unit_fields U r (fun _ => complete_mono d n).
Proof.
  intros Hd. destruct (polynomial_set_1d_ok d n Hd) as (l & Hl & Hn & Hi & _).
  unfold polynomial_set_vector. rewrite Hl. simpl. eexists. split; [reflexivity|].
  apply vectorise_ok; assumption.
Qed.

(** * Hdiv_polynomials *)

(** [F] is the field p(x) * x with p the monomial [m]. *)
Definition is_mono_times_x (d : nat) (m : mono) (F : vpoly) : Prop :=
  length F = d /\ forall c v, c < d -> vcomp (veval F) c v = (v c * meval m v)%R.

Ltac mono_ring := unfold meval; cbn [meval_from]; rewrite ?Nat.add_0_r;
  repeat (cbn [Nat.add pow]; rewrite ?pow_add; cbn [pow]); ring.

Lemma Hdiv2_members n F : In F (map (fun j => [ [(1%Z, [1 + (n - 1 - j); j])]; [(1%Z, [n - 1 - j; 1 + j])] ]) (range n)) <->
  exists a b, S (a + b) = n /\ F = [ [(1%Z, [S a; b])]; [(1%Z, [a; S b])] ].
Proof.
  rewrite in_map_iff. split.
  - intros (j & <- & Hj). apply in_range in Hj. exists (n - 1 - j), j. split; [lia|reflexivity].
  - intros (a & b & E & ->). exists b. split; [|apply in_range; lia].
    replace (n - 1 - b) with a by lia. reflexivity.
Qed.

Lemma Hdiv3_members n F : In F (flat_map (fun j => map (fun k =>
              let a := n - 1 - j - k in
              [ [(1%Z, [1 + a; j; k])]; [(1%Z, [a; 1 + j; k])]; [(1%Z, [a; j; 1 + k])] ])
              (range (n - j))) (range n)) <->
  exists a b c, S (a + b + c) = n /\ F = [ [(1%Z, [S a; b; c])]; [(1%Z, [a; S b; c])]; [(1%Z, [a; b; S c])] ].
Proof.
  rewrite in_flat_map. split.
  - intros (j & Hj & HF). apply in_map_iff in HF. destruct HF as (k & <- & Hk).
    apply in_range in Hj, Hk. exists (n - 1 - j - k), j, k. split; [lia|reflexivity].
  - intros (a & b & c & E & ->). exists b. split; [apply in_range; lia|].
    apply in_map_iff. exists c. split; [|apply in_range; lia].
    cbn zeta. replace (n - 1 - b - c) with a by lia. reflexivity.
Qed.

Lemma Hdiv2_nodup n : NoDup (map (fun j => [ [(1%Z, [1 + (n - 1 - j); j])]; [(1%Z, [n - 1 - j; 1 + j])] ]) (range n)).
Proof. apply NoDup_map_inj; [|apply NoDup_range]. intros a b _ _ E. congruence. Qed.

Lemma Hdiv3_nodup n : NoDup (flat_map (fun j => map (fun k =>
              let a := n - 1 - j - k in
              [ [(1%Z, [1 + a; j; k])]; [(1%Z, [a; 1 + j; k])]; [(1%Z, [a; j; 1 + k])] ])
              (range (n - j))) (range n)).
Proof.
  apply NoDup_flat_map; [apply NoDup_range| |].
  - intros a _. apply NoDup_map_inj; [|apply NoDup_range]. intros x y _ _ E. cbn zeta in E. congruence.
  - intros a b x _ _ Ha Hb. apply in_map_iff in Ha, Hb.
    destruct Ha as (y & <- & _), Hb as (z & E & _). cbn zeta in E. congruence.
Qed.

Ltac eval_mono_times := unfold veval, vcomp; cbn [map nth]; unfold zeval; cbn [fold_right fst snd]; mono_ring.

Lemma Hdiv_polynomials_spec d n : 2 <= d <= 3 ->
  exists X, Hdiv_polynomials d d n = Ok X /\ NoDup X /\
    (forall F, In F X -> exists m, length m = d /\ S (mdeg m) = n /\ is_mono_times_x d m F) /\
    (forall m, length m = d -> S (mdeg m) = n -> exists F, In F X /\ is_mono_times_x d m F) /\
    (forall F, In F X -> homogeneous d n F /\ mdeg (snd (fpiv F)) = n) /\
    private_pivots X fpiv d.
Proof.
  intros Hd. assert (E : d = 2 \/ d = 3) by lia. destruct E as [->| ->]; unfold Hdiv_polynomials; cbn [Nat.eqb negb].
  - eexists. split; [reflexivity|]. split; [apply Hdiv2_nodup|].
    assert (H1 : forall a b, is_mono_times_x 2 [a; b] [ [(1%Z, [S a; b])]; [(1%Z, [a; S b])] ]).
    { intros a b. split; [reflexivity|]. intros c v Hc.
      destruct c as [|[|c]]; [eval_mono_times|eval_mono_times|lia]. }
    split; [|split; [|split]].
    + intros F HF. apply Hdiv2_members in HF. destruct HF as (a & b & E & ->).
      exists [a; b]. split; [reflexivity|]. split; [simpl; lia|apply H1].
    + intros m Hl Hdg. destruct m as [|a [|b [|? ?]]]; try discriminate. simpl in Hdg.
      eexists. split; [apply Hdiv2_members; exists a, b; split; [lia|reflexivity]|apply H1].
    + intros F HF. apply Hdiv2_members in HF. destruct HF as (a & b & E & ->).
      split; [|simpl; lia]. split; [reflexivity|]. repeat constructor; simpl; lia.
    + intros F HF. apply Hdiv2_members in HF. destruct HF as (a & b & E & ->). simpl.
      split; [reflexivity|]. unfold vzcoef. simpl.
      destruct (mono_eq_dec [S a; b] [S a; b]); [|congruence]. split; [discriminate|].
      intros G HG Hne. apply Hdiv2_members in HG. destruct HG as (a' & b' & E' & ->). simpl.
      destruct (mono_eq_dec [S a'; b'] [S a; b]); [|reflexivity]. exfalso. apply Hne. congruence.
  - eexists. split; [reflexivity|]. split; [apply Hdiv3_nodup|].
    assert (H1 : forall a b c, is_mono_times_x 3 [a; b; c]
        [ [(1%Z, [S a; b; c])]; [(1%Z, [a; S b; c])]; [(1%Z, [a; b; S c])] ]).
    { intros a b c. split; [reflexivity|]. intros k v Hk.
      destruct k as [|[|[|k]]]; [eval_mono_times|eval_mono_times|eval_mono_times|lia]. }
    split; [|split; [|split]].
    + intros F HF. apply Hdiv3_members in HF. destruct HF as (a & b & c & E & ->).
      exists [a; b; c]. split; [reflexivity|]. split; [simpl; lia|apply H1].
    + intros m Hl Hdg. destruct m as [|a [|b [|c [|? ?]]]]; try discriminate. simpl in Hdg.
      eexists. split; [apply Hdiv3_members; exists a, b, c; split; [lia|reflexivity]|apply H1].
    + intros F HF. apply Hdiv3_members in HF. destruct HF as (a & b & c & E & ->).
      split; [|simpl; lia]. split; [reflexivity|]. repeat constructor; simpl; lia.
    + intros F HF. apply Hdiv3_members in HF. destruct HF as (a & b & c & E & ->). simpl.
      split; [reflexivity|]. unfold vzcoef. simpl.
      destruct (mono_eq_dec [S a; b; c] [S a; b; c]); [|congruence]. split; [discriminate|].
      intros G HG Hne. apply Hdiv3_members in HG. destruct HG as (a' & b' & c' & E' & ->). simpl.
      destruct (mono_eq_dec [S a'; b'; c'] [S a; b; c]); [|reflexivity]. exfalso. apply Hne. congruence.
Qed.

Lemma Hdiv_polynomials_length d n X : Hdiv_polynomials d d n = Ok X ->
  (d = 2 /\ length X = n) \/ (d = 3 /\ 2 * length X = n * (n + 1)).
Proof.
  unfold Hdiv_polynomials. rewrite Nat.eqb_refl. cbn [negb]. intros H.
  destruct d as [|[|[|[|d]]]]; try discriminate; injection H as <-.
  - left. split; [reflexivity|]. rewrite map_length, length_range. reflexivity.
  - right. split; [reflexivity|]. rewrite length_flat_map_sum.
    rewrite (map_ext _ (fun j => n - j)) by (intros; rewrite map_length, length_range; reflexivity).
    fold (tri n). apply tri_closed.
Qed.

(** * Hcurl_polynomials *)
Definition nedA (a b c : nat) : vpoly := [ [(1%Z, [a; b; S c])]; []; [((-1)%Z, [S a; b; c])] ].
Definition nedB (a b c : nat) : vpoly := [ []; [(1%Z, [a; b; S c])]; [((-1)%Z, [a; S b; c])] ].
Definition nedC (a b : nat) : vpoly := [ [(1%Z, [a; S b; 0])]; [((-1)%Z, [S a; b; 0])]; [] ].

Lemma Hcurl2_members n F : In F (map (fun j => [ [(1%Z, [n - 1 - j; j + 1])]; [((-1)%Z, [n - j; j])] ]) (range n)) <->
  exists a b, S (a + b) = n /\ F = [ [(1%Z, [a; S b])]; [((-1)%Z, [S a; b])] ].
Proof.
  rewrite in_map_iff. split.
  - intros (j & <- & Hj). apply in_range in Hj. exists (n - 1 - j), j. split; [lia|].
    repeat (f_equal; try lia).
  - intros (a & b & E & ->). exists b. split; [|apply in_range; lia].
    repeat (f_equal; try lia).
Qed.

Definition hcurl3A n := flat_map (fun j => map (fun m =>
          [ [(1%Z, [m - 1; j; n - m - j + 1])]; []; [((-1)%Z, [m; j; n - m - j])] ])
          (range2 1 (n + 1 - j))) (range n).
Definition hcurl3B n := flat_map (fun m => map (fun j =>
          [ []; [(1%Z, [m; j - 1; n - m - j + 1])]; [((-1)%Z, [m; j; n - m - j])] ])
          (range2 1 (n + 1 - m))) (range n).
Definition hcurl3C n := map (fun j =>
          [ [(1%Z, [n - j; j; 0])]; [((-1)%Z, [n + 1 - j; j - 1; 0])]; [] ])
          (range2 1 (n + 1)).

Lemma hcurl3A_in n F : In F (hcurl3A n) <-> exists a b c, S (a + b + c) = n /\ F = nedA a b c.
Proof.
  unfold hcurl3A, nedA. rewrite in_flat_map. split.
  - intros (j & Hj & HF). apply in_map_iff in HF. destruct HF as (m & <- & Hm).
    apply in_range in Hj. apply in_range2 in Hm. exists (m - 1), j, (n - m - j). split; [lia|].
    repeat (f_equal; try lia).
  - intros (a & b & c & E & ->). exists b. split; [apply in_range; lia|].
    apply in_map_iff. exists (S a). split; [repeat (f_equal; try lia)|apply in_range2; lia].
Qed.

Lemma hcurl3B_in n F : In F (hcurl3B n) <-> exists a b c, S (a + b + c) = n /\ F = nedB a b c.
Proof.
  unfold hcurl3B, nedB. rewrite in_flat_map. split.
  - intros (m & Hm & HF). apply in_map_iff in HF. destruct HF as (j & <- & Hj).
    apply in_range in Hm. apply in_range2 in Hj. exists m, (j - 1), (n - m - j). split; [lia|].
    repeat (f_equal; try lia).
  - intros (a & b & c & E & ->). exists a. split; [apply in_range; lia|].
    apply in_map_iff. exists (S b). split; [repeat (f_equal; try lia)|apply in_range2; lia].
Qed.

Lemma hcurl3C_in n F : In F (hcurl3C n) <-> exists a b, S (a + b) = n /\ F = nedC a b.
Proof.
  unfold hcurl3C, nedC. rewrite in_map_iff. split.
  - intros (j & <- & Hj). apply in_range2 in Hj. exists (n - j), (j - 1). split; [lia|].
    repeat (f_equal; try lia).
  - intros (a & b & E & ->). exists (S b). split; [repeat (f_equal; try lia)|apply in_range2; lia].
Qed.

(** all members of the 3D set *)
Lemma hcurl3_in n F : In F (hcurl3A n ++ hcurl3B n ++ hcurl3C n) <->
  (exists a b c, S (a + b + c) = n /\ (F = nedA a b c \/ F = nedB a b c)) \/
  (exists a b, S (a + b) = n /\ F = nedC a b).
Proof.
  rewrite !in_app_iff, hcurl3A_in, hcurl3B_in, hcurl3C_in. split.
  - intros [(a & b & c & E & HF)|[(a & b & c & E & HF)|H]]; [left|left|right; exact H];
      exists a, b, c; auto.
  - intros [(a & b & c & E & [HF|HF])|H]; [left|right; left|right; right; exact H];
      exists a, b, c; auto.
Qed.

Lemma hcurl3_nodup n : NoDup (hcurl3A n ++ hcurl3B n ++ hcurl3C n).
Proof.
  assert (HA : NoDup (hcurl3A n)).
  { apply NoDup_flat_map; [apply NoDup_range| |].
    - intros a _. apply NoDup_map_inj; [|apply NoDup_range2]. intros x y _ _ E. congruence.
    - intros a b x _ _ Ha Hb. apply in_map_iff in Ha, Hb.
      destruct Ha as (y & <- & _), Hb as (z & E & _). congruence. }
  assert (HB : NoDup (hcurl3B n)).
  { apply NoDup_flat_map; [apply NoDup_range| |].
    - intros a _. apply NoDup_map_inj; [|apply NoDup_range2]. intros x y _ _ E. congruence.
    - intros a b x _ _ Ha Hb. apply in_map_iff in Ha, Hb.
      destruct Ha as (y & <- & _), Hb as (z & E & _). congruence. }
  assert (HC : NoDup (hcurl3C n)).
  { apply NoDup_map_inj; [|apply NoDup_range2]. intros x y _ _ E. congruence. }
  apply NoDup_app_intro; [exact HA|apply NoDup_app_intro; [exact HB|exact HC|]|].
  - intros F H1 H2. apply hcurl3B_in in H1. apply hcurl3C_in in H2.
    destruct H1 as (a & b & c & _ & ->), H2 as (x & y & _ & E). discriminate.
  - intros F H1 H2. apply in_app_iff in H2. apply hcurl3A_in in H1. destruct H1 as (a & b & c & _ & ->).
    destruct H2 as [H2|H2]; [apply hcurl3B_in in H2; destruct H2 as (x & y & z & _ & E); discriminate|].
    apply hcurl3C_in in H2. destruct H2 as (x & y & _ & E). discriminate.
Qed.

(** x . F(x) at a point *)
Definition x_dot (d : nat) (F : vfun) (v : point) : R :=
  fold_right Rplus 0%R (map (fun c => (v c * vcomp F c v)%R) (seq 0 d)).

Ltac eval_dot := unfold x_dot, veval, vcomp; cbn [seq map nth fold_right]; unfold zeval;
  cbn [fold_right fst snd]; mono_ring.

Ltac pivsolve := unfold vzcoef; simpl; repeat match goal with
  | |- context [mono_eq_dec ?a ?b] => destruct (mono_eq_dec a b)
  end; try reflexivity; try congruence; try discriminate.

Lemma Hcurl_polynomials_spec d n : 2 <= d <= 3 ->
  exists X, Hcurl_polynomials d d n = Ok X /\ NoDup X /\
    (forall F, In F X -> homogeneous d n F /\ mdeg (snd (fpiv F)) = n) /\
    (forall F v, In F X -> x_dot d (veval F) v = 0%R) /\
    private_pivots X fpiv d.
Proof.
  intros Hd. assert (E : d = 2 \/ d = 3) by lia. destruct E as [->| ->]; unfold Hcurl_polynomials; cbn [Nat.eqb negb].
  - eexists. split; [reflexivity|]. split; [|split; [|split]].
    + apply NoDup_map_inj; [|apply NoDup_range]. intros a b _ _ E. congruence.
    + intros F HF. apply Hcurl2_members in HF. destruct HF as (a & b & E & ->).
      split; [|simpl; lia]. split; [reflexivity|]. repeat constructor; simpl; lia.
    + intros F v HF. apply Hcurl2_members in HF. destruct HF as (a & b & E & ->). eval_dot.
    + intros F HF. apply Hcurl2_members in HF. destruct HF as (a & b & E & ->). simpl.
      split; [reflexivity|]. split; [pivsolve|].
      intros G HG Hne. apply Hcurl2_members in HG. destruct HG as (a' & b' & E' & ->). pivsolve.
  - fold (hcurl3A n). fold (hcurl3B n). fold (hcurl3C n).
    eexists. split; [reflexivity|]. split; [apply hcurl3_nodup|]. split; [|split].
    + intros F HF. apply hcurl3_in in HF.
      destruct HF as [(a & b & c & E & [->| ->])|(a & b & E & ->)]; (split; [|simpl; lia]);
      (split; [reflexivity|]); repeat constructor; simpl; lia.
    + intros F v HF. apply hcurl3_in in HF.
      destruct HF as [(a & b & c & E & [->| ->])|(a & b & E & ->)]; unfold nedA, nedB, nedC; eval_dot.
    + intros F HF. apply hcurl3_in in HF.
      destruct HF as [(a & b & c & E & [->| ->])|(a & b & E & ->)]; simpl;
      (split; [reflexivity|]); (split; [pivsolve|]); intros G HG Hne; apply hcurl3_in in HG;
      destruct HG as [(a' & b' & c' & E' & [->| ->])|(a' & b' & E' & ->)]; pivsolve.
Qed.

Lemma sum_range2_tri n c : c = n ->
  2 * list_sum (map (fun j => c + 1 - j - 1) (range n)) = n * (n + 1).
Proof.
  intros ->. rewrite (map_ext _ (fun j => n - j)) by (intros; lia). fold (tri n). apply tri_closed.
Qed.

Lemma Hcurl_polynomials_length d n X : Hcurl_polynomials d d n = Ok X ->
  (d = 2 /\ length X = n) \/ (d = 3 /\ length X = n * (n + 2)).
Proof.
  unfold Hcurl_polynomials. rewrite Nat.eqb_refl. cbn [negb]. intros H.
  destruct d as [|[|[|[|d]]]]; try discriminate.
  - injection H as <-. left. split; [reflexivity|]. rewrite map_length, length_range. reflexivity.
  - fold (hcurl3A n) in H. fold (hcurl3B n) in H. fold (hcurl3C n) in H. injection H as <-.
    right. split; [reflexivity|].
    assert (HA : 2 * length (hcurl3A n) = n * (n + 1)).
    { unfold hcurl3A. rewrite length_flat_map_sum.
      rewrite (map_ext _ (fun j => n + 1 - j - 1)) by (intros; rewrite map_length, length_range2; reflexivity).
      apply sum_range2_tri; reflexivity. }
    assert (HB : 2 * length (hcurl3B n) = n * (n + 1)).
    { unfold hcurl3B. rewrite length_flat_map_sum.
      rewrite (map_ext _ (fun j => n + 1 - j - 1)) by (intros; rewrite map_length, length_range2; reflexivity).
      apply sum_range2_tri; reflexivity. }
    assert (HC : length (hcurl3C n) = n).
    { unfold hcurl3C. rewrite map_length, length_range2. lia. }
    rewrite !app_length. nia.
Qed.
