(** Three of the four degree attributes of trimmed serendipity elements, from their constructors (C56). *)
From Coq Require Import String ZArith Arith Bool Reals Lia Lra List.
From Verif Require Import Base PolyLib PolySetsModel PolySetsProofs ReferencesModel LagrangeModel FamiliesModel FamiliesMoments FamiliesBuilt
  DegreesModel DegreesSpec DegreesLib DegreesUnits DegreesTrimmed DegreesFamilies DegreesEnriched.
Import ListNotations.
Local Open Scope nat_scope.
Set Bullet Behavior "Strict Subproofs".

Definition three_right (pattern : list nat) (c : cell_type) (S : vfun -> Prop) (l2 p1 p2 : Z) : Prop :=
  superdegree pattern (lagrange_monomial c) S l2 /\ subdegree pattern (complete (tdim c)) S p1 /\ superdegree pattern (complete (tdim c)) S p2.
Lemma trimmed_three' c n ms qs (B : nat -> mono -> Prop) p2 : In c [CQuadrilateral; CHexahedron] ->
  polynomial_set_1d (tdim c) n = Ok ms -> fields_in (tdim c) B qs ->
  (forall s u, In s (range (tdim c)) -> length u = tdim c -> B s u -> (forall i, nth i u 0 <= n + 1) /\ list_sum u <= p2) -> n <= p2 ->
  (exists s u, In s (range (tdim c)) /\ length u = tdim c /\ list_sum u = n + 1 /\ ~ B s u) ->
  (exists q j u i, In q qs /\ length u = tdim c /\ coef (z2r (nth j q [])) u <> 0%R /\ nth i u 0 = n + 1) ->
  (exists q j u, In q qs /\ length u = tdim c /\ coef (z2r (nth j q [])) u <> 0%R /\ list_sum u = p2) ->
  three_right (range (tdim c)) c (span (vectorise (tdim c) ms ++ qs)) (Z.of_nat n + 1) (Z.of_nat n) (Z.of_nat p2).
Proof.
  intros Hc E F HB Hp (s3 & u3 & Hs3 & L3 & S3 & N3) (q4 & j4 & u4 & i4 & I4 & L4 & C4 & S4) (q5 & j5 & u5 & I5 & L5 & C5 & S5).
  assert (T : 1 <= tdim c <= 3) by (destruct Hc as [<-|[<-|[]]]; cbn; lia).
  assert (LM : forall m v, lagrange_monomial c m v <-> length v = tdim c /\ forall i, nth i v 0 <= m) by (intros m v; destruct Hc as [<-|[<-|[]]]; reflexivity).
  assert (NS : forall (u : mono) i, nth i u 0 <= list_sum u).
  { intros u. induction u as [|x u IH]; intros [|i]; cbn [nth]; try lia; change (list_sum (x :: u)) with (x + list_sum u); [lia|]. specialize (IH i). lia. }
  assert (C := enriched_conform (tdim c) n ms qs B T E F).
  assert (S : Forall (all_sized (tdim c)) (vectorise (tdim c) ms ++ qs)) by (eapply Forall_impl; [|exact C]; intros p; apply conform_sized; intros s u (L & _); exact L).
  split; [|split].
  - apply (super_by (tdim c) _ _ _ _ (with_low (tdim c) n B)); [intros m u; apply lagrange_length|exact C| |].
    + intros m s u Hm Hs (L & [K|K]); apply LM; (split; [exact L|]); intros i.
      * specialize (NS u i). lia.
      * destruct (HB s u Hs L K) as (X & _). specialize (X i). lia.
    + intros m Hm. apply (outside_field (tdim c) ms qs B _ q4 j4 u4); try assumption. intros K. apply LM in K as (_ & K). specialize (K i4). lia.
  - apply (sub_by (tdim c) _ _ _ _ (fun _ => complete (tdim c) n)); [exact S|intros s u Hs Hu; apply (enriched_low (tdim c) n); assumption| |].
    + intros m s u Hm _ (L & K). split; [exact L|lia].
    + intros m Hm. apply (excluded_low (tdim c) n ms qs B s3 u3); try assumption; [split; [exact L3|lia]|lia].
  - apply (super_by (tdim c) _ _ _ _ (with_low (tdim c) n B)); [intros m u Hu; apply Hu|exact C| |].
    + intros m s u Hm Hs (L & [K|K]); (split; [exact L|]); [lia|]. destruct (HB s u Hs L K) as (_ & X). lia.
    + intros m Hm. apply (outside_field (tdim c) ms qs B _ q5 j5 u5); try assumption. intros (_ & K). lia.
Qed.
Lemma trimmed_three c n ms qs (B : nat -> mono -> Prop) p2 : 1 <= n -> In c [CQuadrilateral; CHexahedron] ->
  polynomial_set_1d (tdim c) (n - 1) = Ok ms -> fields_in (tdim c) B qs ->
  (forall s u, In s (range (tdim c)) -> length u = tdim c -> B s u -> (forall i, nth i u 0 <= n) /\ list_sum u <= p2) -> n <= p2 ->
  (exists s u, In s (range (tdim c)) /\ length u = tdim c /\ list_sum u = n /\ ~ B s u) ->
  (exists q j u i, In q qs /\ length u = tdim c /\ coef (z2r (nth j q [])) u <> 0%R /\ nth i u 0 = n) ->
  (exists q j u, In q qs /\ length u = tdim c /\ coef (z2r (nth j q [])) u <> 0%R /\ list_sum u = p2) ->
  three_right (range (tdim c)) c (span (vectorise (tdim c) ms ++ qs)) (Z.of_nat n) (Z.of_nat n - 1) (Z.of_nat p2).
Proof.
  intros Hn. remember (n - 1) as r eqn:Er. assert (n = r + 1) as -> by lia. clear Er. intros. replace (Z.of_nat (r + 1)) with (Z.of_nat r + 1)%Z by lia. replace (Z.of_nat r + 1 - 1)%Z with (Z.of_nat r) by lia.
  apply (trimmed_three' c r ms qs B p2); try assumption. lia.
Qed.
Definition ok_three (f : family) (c : cell_type) (n : nat) (e : fe) : Prop :=
  three_right (value_pattern f c) c (span (fe_poly e)) (lagrange_superdegree f c (Z.of_nat n)) (polynomial_subdegree f c (Z.of_nat n)) (polynomial_superdegree f c (Z.of_nat n)).
Lemma three_right_eq pattern c S l2 p1 p2 l2' p1' p2' : three_right pattern c S l2 p1 p2 -> l2 = l2' -> p1 = p1' -> p2 = p2' -> three_right pattern c S l2' p1' p2'.
Proof. intros H <- <- <-. exact H. Qed.
Ltac three_eq := cbn [lagrange_superdegree polynomial_subdegree polynomial_superdegree tdim]; try lia; try reflexivity.

Definition tscurl2 (n s : nat) (u : mono) : Prop := list_sum u = n /\ 1 <= nth (1 - s) u 0.
Definition tscurl3 (n s : nat) (u : mono) : Prop :=
  (nth 0 u 0 <= n /\ nth 1 u 0 <= n /\ nth 2 u 0 <= n) /\ list_sum u <= n + 1 /\ (s = 0 -> 1 <= nth 1 u 0 + nth 2 u 0).
Definition tsdiv (n s : nat) (u : mono) : Prop := list_sum u = n /\ 1 <= nth s u 0.
Ltac ts_start P' ms Em := unfold ts_hcurl_poly, ts_hdiv_poly, polynomial_set_vector in *;
  match goal with H : rbind (rmap _ ?r) _ = Ok _ |- _ => destruct r as [ms|] eqn:Em; [|discriminate H]; cbn [rmap rbind] in H; rename H into P' end; injection P' as <-; cbn [Nat.eqb].
Ltac hide_subs := repeat match goal with |- context [?a - ?b] => let r := fresh "r" in let Er := fresh "Er" in remember (a - b) as r eqn:Er end.
Ltac list_members Hp := repeat destruct Hp as [<-|Hp]; try destruct Hp.
Lemma grad_fields n u s : length u = 3 -> nth 0 u 0 <= n /\ nth 1 u 0 <= n /\ nth 2 u 0 <= n -> 1 <= nth 1 u 0 + nth 2 u 0 -> list_sum u <= n + 2 -> 
  (nth 0 u 0 = 0 \/ nth 1 u 0 = 0 \/ nth 2 u 0 = 0 -> list_sum u <= n + 1) ->
  Forall (fun t => length (snd t) = 3 /\ tscurl3 n s (snd t)) (nth s (mono_grad 3 u) []).
Proof.
  intros L. destruct u as [|x [|y [|z [|]]]]; try discriminate L. unfold tscurl3.
  intros H1 H2 H3 H4. cbn in H1, H2, H3, H4. destruct s as [|[|[|s]]]; [| | |cbn; destruct s; apply Forall_nil]; cbn; (apply Forall_cons; [|apply Forall_nil]); cbn; lia.
Qed.
Lemma tscurl_three k c n v e : 1 <= n -> In c (references TrimmedSerendipityHcurl) -> construct k TrimmedSerendipityHcurl (default c) n v = Ok e -> ok_three TrimmedSerendipityHcurl c n e.
Proof.
  intros Hn Hc E. start k Hc E.
  - ts_start P' ms Em.
    eapply three_right_eq; [apply (trimmed_three CQuadrilateral n ms _ (tscurl2 n) n); try assumption; try lia|..]; three_eq.
    + cbn; tauto.
    + intros p Hp. unfold tscurl2. apply in_app_or in Hp as [Hp|Hp].
      * apply in_map_iff in Hp as (j & <- & Hj). apply in_range in Hj. hide_subs. field_ok; lia.
      * revert Hp. hide_subs. intros Hp. destruct (Nat.eqb_spec n 1); list_members Hp; field_ok; lia.
    + cbn [tdim]. intros s u Hs L (H1 & H2). destruct u as [|x [|y [|]]]; try discriminate L. cbn in H1. split; [all_le|cbn; lia].
    + exists 0, [n; 0]. split; [cbn; tauto|]. split; [reflexivity|]. split; [cbn; lia|]. intros (_ & X). cbn in X. lia.
    + exists [[(1%Z, [0; n - 0])]; [((-1)%Z, [0 + 1; n - 1 - 0])]], 0, [0; n - 0], 1. split; [apply in_or_app; left; apply (in_mapped _ _ 0); [reflexivity|apply in_range; lia]|].
      split; [reflexivity|]. split; [coef1|cbn; lia].
    + exists [[(1%Z, [0; n - 0])]; [((-1)%Z, [0 + 1; n - 1 - 0])]], 0, [0; n - 0]. split; [apply in_or_app; left; apply (in_mapped _ _ 0); [reflexivity|apply in_range; lia]|].
      split; [reflexivity|]. split; [coef1|cbn; lia].
  - ts_start P' ms Em.
    eapply three_right_eq; [apply (trimmed_three CHexahedron n ms _ (tscurl3 n) (n + 1)); try assumption; try lia|..]; three_eq.
    + cbn; tauto.
    + intros p Hp. repeat (apply in_app_or in Hp as [Hp|Hp]).
      * apply in_flat_map in Hp as (i & Hi & Hp). apply in_flat_map in Hp as (j & Hj & Hp). apply in_range in Hi, Hj.
        rewrite orb_true_r in Hp. unfold tscurl3. revert Hp. hide_subs. intros Hp. repeat apply in_app_or in Hp as [Hp|Hp]; try (destruct (_ || _)%bool); list_members Hp; field_ok; lia.
      * destruct (Nat.eqb_spec n 1); list_members Hp; (split; [reflexivity|]); intros s; apply grad_fields; cbn; lia.
      * apply in_flat_map in Hp as (i & Hi & Hp). apply in_range in Hi. revert Hp. hide_subs. intros Hp.
        destruct Hp as [<-|Hp]; [|destruct (negb (i =? 1)); [destruct Hp as [<-|Hp]; [|destruct (negb _); list_members Hp]|destruct Hp]];
          (split; [reflexivity|]); intros s; apply grad_fields; cbn; lia.
      * apply in_flat_map in Hp as (i & Hi & Hp). apply in_range in Hi. unfold ts_loop in Hp. unfold tscurl3. revert Hp. hide_subs. intros Hp.
        apply in_app_or in Hp as [Hp|Hp]; [|destruct (1 <? n)]; list_members Hp; field_ok; lia.
    + cbn [tdim]. intros s w Hs L (H1 & H2 & _). destruct w as [|x [|y [|z [|]]]]; try discriminate L. cbn in H1, H2. split; [clear H2; all_le|cbn; lia].
    + exists 0, [n; 0; 0]. split; [cbn; tauto|]. split; [reflexivity|]. split; [cbn; lia|]. intros (_ & _ & X). cbn in X. lia.
    + exists (mono_grad 3 [1; 1; n]), 0, [0; 1; n], 2. split; [apply in_or_app; right; apply in_or_app; left; destruct (n =? 1); left; reflexivity|]. split; [reflexivity|]. split; [|reflexivity].
      cbn. destruct (mono_eq_dec _ _); [lra|contradiction].
    + exists (mono_grad 3 [1; 1; n]), 0, [0; 1; n]. split; [apply in_or_app; right; apply in_or_app; left; destruct (n =? 1); left; reflexivity|]. split; [reflexivity|]. split; [|cbn; lia].
      cbn. destruct (mono_eq_dec _ _); [lra|contradiction].
Qed.
Lemma tsdiv_three k c n v e : 1 <= n -> In c (references TrimmedSerendipityHdiv) -> construct k TrimmedSerendipityHdiv (default c) n v = Ok e -> ok_three TrimmedSerendipityHdiv c n e.
Proof.
  intros Hn Hc E. start k Hc E.
  - ts_start P' ms Em.
    eapply three_right_eq; [apply (trimmed_three CQuadrilateral n ms _ (tsdiv n) n); try assumption; try lia|..]; three_eq.
    + cbn; tauto.
    + intros p Hp. unfold tsdiv. apply in_app_or in Hp as [Hp|Hp].
      * apply in_map_iff in Hp as (j & <- & Hj). apply in_range in Hj. hide_subs. field_ok; lia.
      * revert Hp. hide_subs. intros Hp. destruct (Nat.eqb_spec n 1); list_members Hp; field_ok; lia.
    + cbn [tdim]. intros s u Hs L (H1 & H2). destruct u as [|x [|y [|]]]; try discriminate L. cbn in H1. split; [all_le|cbn; lia].
    + exists 0, [0; n]. split; [cbn; tauto|]. split; [reflexivity|]. split; [cbn; lia|]. intros (_ & X). cbn in X. lia.
    + exists [[(1%Z, [0 + 1; n - 1 - 0])]; [(1%Z, [0; n - 0])]], 1, [0; n - 0], 1. split; [apply in_or_app; left; apply (in_mapped _ _ 0); [reflexivity|apply in_range; lia]|].
      split; [reflexivity|]. split; [coef1|cbn; lia].
    + exists [[(1%Z, [0 + 1; n - 1 - 0])]; [(1%Z, [0; n - 0])]], 1, [0; n - 0]. split; [apply in_or_app; left; apply (in_mapped _ _ 0); [reflexivity|apply in_range; lia]|].
      split; [reflexivity|]. split; [coef1|cbn; lia].
  - ts_start P' ms Em.
    eapply three_right_eq; [apply (trimmed_three CHexahedron n ms _ (tsdiv n) n); try assumption; try lia|..]; three_eq.
    + cbn; tauto.
    + intros p Hp. unfold tsdiv. apply in_app_or in Hp as [Hp|Hp].
      * apply in_flat_map in Hp as (i & Hi & Hp). apply in_map_iff in Hp as (j & <- & Hj). apply in_range in Hi, Hj. cbv zeta. hide_subs. field_ok; lia.
      * apply in_map_iff in Hp as (q & <- & Hp). apply in_flat_map in Hp as (i & Hi & Hp). apply in_range in Hi. unfold ts_loop in Hp. revert Hp. hide_subs. intros Hp.
        apply in_app_or in Hp as [Hp|Hp]; [|destruct (1 <? n)]; list_members Hp; field_ok; lia.
    + cbn [tdim]. intros s w Hs L (H1 & H2). destruct w as [|x [|y [|z [|]]]]; try discriminate L. cbn in H1. split; [clear H2; all_le|cbn; lia].
    + exists 0, [0; n; 0]. split; [cbn; tauto|]. split; [reflexivity|]. split; [cbn; lia|]. intros (_ & X). cbn in X. lia.
    + exists [[(1%Z, [1 + 0; 0; n - 1 - 0 - 0])]; [(1%Z, [0; 1 + 0; n - 1 - 0 - 0])]; [(1%Z, [0; 0; 1 + (n - 1 - 0 - 0)])]], 2, [0; 0; 1 + (n - 1 - 0 - 0)], 2.
      split; [apply in_or_app; left; apply (in_flat _ _ 0); [apply in_range; lia|apply (in_mapped _ _ 0); [reflexivity|apply in_range; lia]]|].
      split; [reflexivity|]. split; [coef1|cbn [nth]; lia].
    + exists [[(1%Z, [1 + 0; 0; n - 1 - 0 - 0])]; [(1%Z, [0; 1 + 0; n - 1 - 0 - 0])]; [(1%Z, [0; 0; 1 + (n - 1 - 0 - 0)])]], 2, [0; 0; 1 + (n - 1 - 0 - 0)].
      split; [apply in_or_app; left; apply (in_flat _ _ 0); [apply in_range; lia|apply (in_mapped _ _ 0); [reflexivity|apply in_range; lia]]|].
      split; [reflexivity|]. split; [coef1|cbn [list_sum fold_right]; lia].
Qed.

