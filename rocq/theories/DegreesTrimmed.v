(** The degree attributes of the Raviart-Thomas, Nedelec and BDFM elements on simplices, between two complete spaces (C56). *)
From Coq Require Import String ZArith Arith Bool Reals Lia Lra List.
From Verif Require Import Base PolyLib PolySetsModel PolySetsProofs ReferencesModel LagrangeModel FamiliesModel FamiliesBuilt
  DegreesModel DegreesSpec DegreesLib DegreesUnits.
Import ListNotations.
Local Open Scope nat_scope.

Lemma trimmed_degrees c n ms qs (ok : mono -> Prop) (w : nat -> mono) : In c [CTriangle; CTetrahedron] -> 1 <= n ->
  polynomial_set_1d (tdim c) (n - 1) = Ok ms ->
  (forall p, In p qs -> length p = tdim c /\ forall s, Forall (fun t => length (snd t) = tdim c /\ list_sum (snd t) = n /\ (s = 0 -> ok (snd t))) (nth s p [])) ->
  (forall m, n <= m -> length (w m) = tdim c /\ list_sum (w m) = m) -> ~ ok (w n) ->
  (exists q j u, In q qs /\ length u = tdim c /\ list_sum u = n /\ coef (z2r (nth j q [])) u <> 0%R) ->
  degrees_right (range (tdim c)) c (span (vectorise (tdim c) ms ++ qs)) (Z.of_nat n - 1) (Z.of_nat n) (Z.of_nat n - 1) (Z.of_nat n).
Proof.
  intros Hc Hn Ems Hq Hw Nw (q & j & u & Iq & Lu & Su & Nq).
  assert (T : 1 <= tdim c <= 3) by (destruct Hc as [<-|[<-|[]]]; cbn; lia).
  assert (Z0 : In 0 (range (tdim c))) by (apply in_range; lia).
  assert (LM : forall m v, lagrange_monomial c m v <-> complete (tdim c) m v) by (intros m v; destruct Hc as [<-|[<-|[]]]; reflexivity).
  set (B := fun (s : nat) (v : mono) => length v = tdim c /\ (list_sum v <= n - 1 \/ list_sum v = n /\ (s = 0 -> ok v))).
  destruct (units_vectorise (tdim c) ms) as (U1 & U2).
  assert (O : outside (tdim c) (vectorise (tdim c) ms ++ qs) (complete (tdim c) (n - 1))).
  { exists q, j, u. split; [apply span_in, in_or_app; right; exact Iq|]. split; [|split; [exact Lu|split; [exact Nq|intros (_ & K); lia]]].
    destruct (Hq q Iq) as (_ & H). unfold all_sized. apply Forall_forall. intros z Hz. destruct (In_nth q z [] Hz) as (i & _ & <-).
    eapply Forall_impl; [|apply (H i)]. cbn. tauto. }
  assert (O' : forall m, (Z.of_nat m < Z.of_nat n)%Z -> outside (tdim c) (vectorise (tdim c) ms ++ qs) (complete (tdim c) m)).
  { intros m Hm. destruct O as (a & b & e & O1 & O2 & O3 & O4 & O5). exists a, b, e. split; [exact O1|]. split; [exact O2|]. split; [exact O3|]. split; [exact O4|].
    intros (K1 & K2). apply O5. split; [exact K1|]. lia. }
  assert (X : forall m, (Z.of_nat n - 1 < Z.of_nat m)%Z -> exists s v, In s (range (tdim c)) /\ complete (tdim c) m v /\ ~ B s v).
  { intros m Hm. exists 0, (w m). destruct (Hw m ltac:(lia)) as (W1 & W2). split; [exact Z0|]. split; [split; [exact W1|lia]|].
    intros (_ & [K|(K1 & K2)]); [lia|]. replace m with n in * by lia. apply Nw, K2. reflexivity. }
  apply (degrees_by (range (tdim c)) c _ (fun _ => complete (tdim c) (n - 1)) B).
  - intros s v (L & _). exact L.
  - intros s v Hs Hv. apply span_in, in_or_app. left. apply U1; [exact Hs|]. apply (poly1d_in _ _ _ T Ems), Hv.
  - apply Forall_forall. intros p Hp. apply in_app_or in Hp as [Hp|Hp].
    + destruct (U2 p Hp) as (s & v & Hs & Hv & ->). apply conform_unit. apply (poly1d_in _ _ _ T Ems) in Hv as (L & H). split; [exact L|]. left. exact H.
    + destruct (Hq p Hp) as (L & H). rewrite <- L. apply conform_vector. intros s. eapply Forall_impl; [|apply (H s)]. cbn beta. intros t (A1 & A2 & A3). split; [exact A1|]. right. split; assumption.
  - intros m s v Hm _ Hv. apply LM in Hv as (L & H). split; [exact L|]. lia.
  - intros m Hm. destruct (X m Hm) as (s & v & H1 & H2 & H3). exists s, v. split; [exact H1|]. split; [apply LM, H2|exact H3].
  - intros m s v Hm _ (L & H). apply LM. split; [exact L|]. lia.
  - intros m Hm. destruct (O' m Hm) as (a & b & e & O1 & O2 & O3 & O4 & O5). exists a, b, e. rewrite LM. tauto.
  - intros m s v Hm _ (L & H). split; [exact L|]. lia.
  - exact X.
  - intros m s v Hm _ (L & H). split; [exact L|]. lia.
  - exact O'.
Qed.

Ltac extra_field := split; [reflexivity|]; let s := fresh "s" in intros s; destruct s as [|[|[|s]]]; cbn;
  try (destruct s); repeat first [apply Forall_cons|apply Forall_nil]; cbn; repeat split; intros; try discriminate; try lia.
Lemma rt_extra d n l : 2 <= d <= 3 -> 1 <= n -> Hdiv_polynomials d d n = Ok l -> forall p, In p l ->
  length p = d /\ forall s, Forall (fun t => length (snd t) = d /\ list_sum (snd t) = n /\ (s = 0 -> 1 <= nth 0 (snd t) 0)) (nth s p []).
Proof.
  intros Hd Hn E p Hp. unfold Hdiv_polynomials in E. rewrite Nat.eqb_refl in E. cbn [negb] in E.
  destruct (Nat.eq_dec d 2) as [->|N]; [|replace d with 3 in * by lia]; injection E as <-; in_list; extra_field.
Qed.
Lemma n1_extra d n l : 2 <= d <= 3 -> 1 <= n -> Hcurl_polynomials d d n = Ok l -> forall p, In p l ->
  length p = d /\ forall s, Forall (fun t => length (snd t) = d /\ list_sum (snd t) = n /\ (s = 0 -> nth 0 (snd t) 0 < n)) (nth s p []).
Proof.
  intros Hd Hn E p Hp. unfold Hcurl_polynomials in E. rewrite Nat.eqb_refl in E. cbn [negb] in E.
  destruct (Nat.eq_dec d 2) as [->|N]; [|replace d with 3 in * by lia]; injection E as <-; in_list; extra_field.
Qed.
Lemma bdfm_extra c n l : In c [CTriangle; CTetrahedron] -> 1 <= n -> bdfm_polyset c n = Ok l -> exists ms qs,
  polynomial_set_1d (tdim c) (n - 1) = Ok ms /\ l = vectorise (tdim c) ms ++ qs /\
  (forall p, In p qs -> length p = tdim c /\
     forall s, Forall (fun t => length (snd t) = tdim c /\ list_sum (snd t) = n /\ (s = 0 -> 1 <= nth 0 (snd t) 0)) (nth s p [])) /\
  exists q j u, In q qs /\ length u = tdim c /\ list_sum u = n /\ coef (z2r (nth j q [])) u <> 0%R.
Proof.
  intros Hc Hn E. unfold bdfm_polyset, polynomial_set_vector in E. destruct (polynomial_set_1d (tdim c) (n - 1)) as [ms|e]; [|discriminate E].
  destruct Hc as [<-|[<-|[]]]; cbn [rmap rbind tdim] in E; injection E as <-; eexists; eexists; (split; [reflexivity|]); (split; [reflexivity|]).
  - split.
    + intros p Hp. apply in_app_or in Hp as [Hp|[<-|[]]]; [in_list|]; extra_field.
    + exists [[(1%Z, [1 + (n - 1); 0])]; [(1%Z, [n - 1; 1])]], 0, [1 + (n - 1); 0]. split; [apply in_or_app; right; left; reflexivity|].
      split; [reflexivity|]. split; [cbn; lia|]. cbn [nth]. rewrite coef_one. destruct (mono_eq_dec _ _); [lra|contradiction].
  - split.
    + intros p Hp. in_list; extra_field.
    + exists [[(1%Z, [1; n - 1; 0])]; [(1%Z, [0; 1 + (n - 1); 0])]; [(1%Z, [0; n - 1; 1])]], 0, [1; n - 1; 0]. split.
      * apply in_or_app. right. apply in_or_app. left. apply (in_mapped _ _ 0); [|apply in_range; lia]. cbn. rewrite !Nat.sub_0_r. 
        repeat f_equal; lia.
      * split; [reflexivity|]. split; [cbn; lia|]. cbn [nth]. rewrite coef_one. destruct (mono_eq_dec _ _); [lra|contradiction].
Qed.
