(** The degree attributes of the families whose polynomial sets are complete sets with some more fields (C56). *)
From Coq Require Import String ZArith Arith Bool Reals Lia Lra List.
From Verif Require Import Base PolyLib PolySetsModel PolySetsProofs ReferencesModel LagrangeModel FamiliesModel FamiliesMoments FamiliesBuilt
  DegreesModel DegreesSpec DegreesLib DegreesUnits DegreesTrimmed DegreesFamilies.
Import ListNotations.
Local Open Scope nat_scope.
Set Bullet Behavior "Strict Subproofs".

Lemma degrees_mixed pattern c ps (A B : nat -> mono -> Prop) l1 l2 p1 p2 :
  (forall s u, B s u -> length u = tdim c) ->
  (forall s u, In s pattern -> A s u -> span ps (veval (unit pattern s u))) -> Forall (conform pattern B) ps ->
  (forall m s u, (Z.of_nat m <= l1)%Z -> In s pattern -> lagrange_monomial c m u -> A s u) ->
  (forall m, (l1 < Z.of_nat m)%Z -> excluded (tdim c) pattern ps (lagrange_monomial c m)) ->
  (forall m s u, (l2 <= Z.of_nat m)%Z -> In s pattern -> B s u -> lagrange_monomial c m u) ->
  (forall m, (Z.of_nat m < l2)%Z -> outside (tdim c) ps (lagrange_monomial c m)) ->
  (forall m s u, (Z.of_nat m <= p1)%Z -> In s pattern -> complete (tdim c) m u -> A s u) ->
  (forall m, (p1 < Z.of_nat m)%Z -> excluded (tdim c) pattern ps (complete (tdim c) m)) ->
  (forall m s u, (p2 <= Z.of_nat m)%Z -> In s pattern -> B s u -> complete (tdim c) m u) ->
  (forall m, (Z.of_nat m < p2)%Z -> outside (tdim c) ps (complete (tdim c) m)) ->
  degrees_right pattern c (span ps) l1 l2 p1 p2.
Proof.
  intros HB HA C G1 G2 G3 G4 G5 G6 G7 G8.
  assert (S : Forall (all_sized (tdim c)) ps) by (eapply Forall_impl; [|exact C]; intros p; apply conform_sized, HB).
  split; [|split; [|split]].
  - apply (sub_by (tdim c) pattern _ ps l1 A); assumption.
  - apply (super_by (tdim c) pattern _ ps l2 B); try assumption. intros m u. apply lagrange_length.
  - apply (sub_by (tdim c) pattern _ ps p1 A); assumption.
  - apply (super_by (tdim c) pattern _ ps p2 B); try assumption. intros m u Hu. apply Hu.
Qed.

(** the fields of qs have d entries, with the monomials of the entry s in B s *)
Definition fields_in (d : nat) (B : nat -> mono -> Prop) (qs : list vpoly) : Prop :=
  forall p, In p qs -> length p = d /\ forall s, Forall (fun t => length (snd t) = d /\ B s (snd t)) (nth s p []).
(** the monomials of the fields of the two sets together *)
Definition with_low (d n : nat) (B : nat -> mono -> Prop) (s : nat) (u : mono) : Prop := length u = d /\ (list_sum u <= n \/ B s u).
Lemma enriched_conform d n ms qs (B : nat -> mono -> Prop) : 1 <= d <= 3 -> polynomial_set_1d d n = Ok ms -> fields_in d B qs ->
  Forall (conform (range d) (with_low d n B)) (vectorise d ms ++ qs).
Proof.
  intros Hd E Hq. apply Forall_forall. intros p Hp. apply in_app_or in Hp as [Hp|Hp].
  - destruct (units_vectorise d ms) as (_ & U2). destruct (U2 p Hp) as (s & v & Hs & Hv & ->). apply conform_unit.
    apply (poly1d_in _ _ _ Hd E) in Hv as (L & H). split; [exact L|]. left. exact H.
  - destruct (Hq p Hp) as (L & H). rewrite <- L. apply conform_vector. intros s. eapply Forall_impl; [|apply (H s)]. cbn beta. rewrite L.
    intros t (A1 & A2). split; [exact A1|]. right. exact A2.
Qed.
Lemma enriched_low d n ms qs s u : 1 <= d <= 3 -> polynomial_set_1d d n = Ok ms -> In s (range d) -> complete d n u -> span (vectorise d ms ++ qs) (veval (unit (range d) s u)).
Proof.
  intros Hd E Hs Hu. apply span_in, in_or_app. left. destruct (units_vectorise d ms) as (U1 & _). apply U1; [exact Hs|]. apply (poly1d_in _ _ _ Hd E), Hu.
Qed.
Lemma excluded_W d n ms qs (W : weights) s u (L : mono -> Prop) : 1 <= d <= 3 -> polynomial_set_1d d n = Ok ms ->
  Forall (fun t => length (snd (snd t)) = d /\ n < list_sum (snd (snd t))) W -> (forall p, In p qs -> wval W p = 0%R) ->
  In s (range d) -> L u -> length u = d -> wval W (unit (range d) s u) <> 0%R -> excluded d (range d) (vectorise d ms ++ qs) L.
Proof.
  intros Hd E SW HW Hs HL Lu N. exists W, s, u. split; [exact Hs|]. split; [exact HL|]. split; [exact Lu|].
  split; [eapply Forall_impl; [|exact SW]; cbn; tauto|]. split; [|exact N]. intros p Hp. apply in_app_or in Hp as [Hp|Hp]; [|apply HW, Hp].
  destruct (units_vectorise d ms) as (_ & U2). destruct (U2 p Hp) as (s' & v & Hs' & Hv & ->). apply (poly1d_in _ _ _ Hd E) in Hv as (Lv & Sv).
  clear - SW Sv. induction SW as [|[w [j x]] W (H1 & H2) SW IH]; [reflexivity|]. unfold wval. cbn [fold_right fst snd]. fold (wval W (unit (range d) s' v)). rewrite IH.
  replace (coef (z2r (nth j (unit (range d) s' v) [])) x) with 0%R; [lra|].
  destruct (lt_dec j (length (range d))) as [Hj|Hj].
  - rewrite nth_unit by exact Hj. destruct (_ =? _); [|reflexivity]. rewrite coef_one. destruct (mono_eq_dec v x) as [->|]; [cbn [snd] in H2; lia|reflexivity].
  - rewrite nth_overflow by (unfold unit; rewrite map_length; lia). reflexivity.
Qed.
Lemma excluded_low d n ms qs (B : nat -> mono -> Prop) s u (L : mono -> Prop) : 1 <= d <= 3 -> polynomial_set_1d d n = Ok ms -> fields_in d B qs ->
  In s (range d) -> L u -> length u = d -> n < list_sum u -> ~ B s u -> excluded d (range d) (vectorise d ms ++ qs) L.
Proof.
  intros Hd E Hq Hs HL Lu Su N. apply (excluded_B d (range d) (with_low d n B) _ _ s u); try assumption; [apply enriched_conform; assumption|].
  intros (_ & [K|K]); [lia|contradiction].
Qed.
Lemma outside_field d ms qs (B : nat -> mono -> Prop) (L : mono -> Prop) q j u : fields_in d B qs -> In q qs -> length u = d -> coef (z2r (nth j q [])) u <> 0%R -> ~ L u ->
  outside d (vectorise d ms ++ qs) L.
Proof.
  intros Hq Iq Lu N NL. exists q, j, u. split; [apply span_in, in_or_app; right; exact Iq|]. split; [|tauto].
  destruct (Hq q Iq) as (_ & H). unfold all_sized. apply Forall_forall. intros z Hz. destruct (In_nth q z [] Hz) as (i & _ & <-).
  eapply Forall_impl; [|apply (H i)]. cbn. tauto.
Qed.

Lemma mono2_eq (a b a' b' : nat) : a = a' -> b = b' -> [a; b] = [a'; b'].
Proof. intros -> ->. reflexivity. Qed.
Lemma mono3_eq (a b c a' b' c' : nat) : a = a' -> b = b' -> c = c' -> [a; b; c] = [a'; b'; c'].
Proof. intros -> -> ->. reflexivity. Qed.
(** computes the weighted coefficients of a field that is written out *)
Ltac numbers := repeat match goal with |- context [Z.of_nat ?k] => let v := eval cbv in (Z.of_nat k) in change (Z.of_nat k) with v end.
Ltac weigh := unfold wval; cbv [unit range]; cbn [seq Nat.eqb fold_right fst snd nth z2r map coef];
  repeat (destruct (mono_eq_dec _ _) as [?K|?K]; cbn [fold_right fst snd]);
  repeat match goal with
    | K : _ = _ :> mono |- _ => first [injection K; clear K; intros|clear K]
    | K : _ = _ :> list nat |- _ => first [injection K; clear K; intros|clear K]
    end;
  first [lra|numbers; lra|exfalso; lia
        |exfalso; match goal with K : _ <> _ |- _ => solve [apply K; first [apply mono2_eq; lia|apply mono3_eq; lia]] end|idtac].
Ltac in_fields := intros p Hp; repeat match goal with
  | H : In _ (map _ _) |- _ => apply in_map_iff in H; destruct H as (? & <- & H)
  | H : In _ (_ :: _) |- _ => destruct H as [<-|H]
  | H : In _ [] |- _ => destruct H
  end.
Ltac field_ok := split; [reflexivity|]; let s := fresh "s" in intros s; destruct s as [|[|[|s]]]; cbn;
  try (destruct s); repeat first [apply Forall_cons|apply Forall_nil]; cbn; (split; [reflexivity|]); auto.


Lemma enriched_degrees c n ms qs (B A : nat -> mono -> Prop) l1 p2 : In c [CQuadrilateral; CHexahedron] ->
  polynomial_set_1d (tdim c) n = Ok ms -> fields_in (tdim c) B qs ->
  (forall s u, In s (range (tdim c)) -> length u = tdim c -> B s u -> (forall i, nth i u 0 <= n + 1) /\ list_sum u <= p2) -> n <= p2 ->
  (forall s u, In s (range (tdim c)) -> A s u -> span (vectorise (tdim c) ms ++ qs) (veval (unit (range (tdim c)) s u))) ->
  (forall m s u, (Z.of_nat m <= l1)%Z -> In s (range (tdim c)) -> lagrange_monomial c m u -> list_sum u <= n \/ A s u) ->
  (forall m, (l1 < Z.of_nat m)%Z -> excluded (tdim c) (range (tdim c)) (vectorise (tdim c) ms ++ qs) (lagrange_monomial c m)) ->
  (exists s u, In s (range (tdim c)) /\ length u = tdim c /\ list_sum u = n + 1 /\ ~ B s u) ->
  (exists q j u i, In q qs /\ length u = tdim c /\ coef (z2r (nth j q [])) u <> 0%R /\ nth i u 0 = n + 1) ->
  (exists q j u, In q qs /\ length u = tdim c /\ coef (z2r (nth j q [])) u <> 0%R /\ list_sum u = p2) ->
  degrees_right (range (tdim c)) c (span (vectorise (tdim c) ms ++ qs)) l1 (Z.of_nat n + 1) (Z.of_nat n) (Z.of_nat p2).
Proof.
  intros Hc E F HB Hp HA H1 H2 (s3 & u3 & Hs3 & L3 & S3 & N3) (q4 & j4 & u4 & i4 & I4 & L4 & C4 & S4) (q5 & j5 & u5 & I5 & L5 & C5 & S5).
  assert (T : 1 <= tdim c <= 3) by (destruct Hc as [<-|[<-|[]]]; cbn; lia).
  assert (LM : forall m v, lagrange_monomial c m v <-> length v = tdim c /\ forall i, nth i v 0 <= m) by (intros m v; destruct Hc as [<-|[<-|[]]]; reflexivity).
  assert (NS : forall (u : mono) i, nth i u 0 <= list_sum u).
  { intros u. induction u as [|x u IH]; intros [|i]; cbn [nth]; try lia; change (list_sum (x :: u)) with (x + list_sum u); [lia|]. specialize (IH i). lia. }
  apply (degrees_mixed (range (tdim c)) c _ (fun s u => complete (tdim c) n u \/ A s u) (with_low (tdim c) n B)).
  - intros s u (L & _). exact L.
  - intros s u Hs [Hu|Hu]; [apply (enriched_low (tdim c) n); assumption|apply HA; assumption].
  - apply enriched_conform; assumption.
  - intros m s u Hm Hs Hu. destruct (H1 m s u Hm Hs Hu) as [K|K]; [left|right; exact K]. apply LM in Hu as (L & _). split; assumption.
  - exact H2.
  - intros m s u Hm Hs (L & [K|K]); apply LM; (split; [exact L|]); intros i.
    + specialize (NS u i). lia.
    + destruct (HB s u Hs L K) as (X & _). specialize (X i). lia.
  - intros m Hm. apply (outside_field (tdim c) ms qs B _ q4 j4 u4); try assumption. intros K. apply LM in K as (_ & K). specialize (K i4). lia.
  - intros m s u Hm _ (L & K). left. split; [exact L|lia].
  - intros m Hm. apply (excluded_low (tdim c) n ms qs B s3 u3); try assumption; [split; [exact L3|lia]|lia].
  - intros m s u Hm Hs (L & [K|K]); (split; [exact L|]); [lia|]. destruct (HB s u Hs L K) as (_ & X). lia.
  - intros m Hm. apply (outside_field (tdim c) ms qs B _ q5 j5 u5); try assumption. intros (_ & K). lia.
Qed.
Lemma div_spec n d : 0 < d -> (Z.of_nat n / Z.of_nat d)%Z = Z.of_nat (n / d) /\ d * (n / d) <= n < d * (n / d) + d.
Proof.
  intros Hd. split; [symmetry; apply div_Zdiv; lia|]. pose proof (Nat.div_mod n d ltac:(lia)). pose proof (Nat.mod_upper_bound n d ltac:(lia)). lia.
Qed.

(** ** Serendipity H(div) and H(curl) and Arbogast-Correa on quadrilaterals *)
Ltac all_le := intros i; destruct i as [|[|[|[|i]]]]; cbn; try lia; try (destruct i; cbn; lia).
Definition sdiv2 (n s : nat) (u : mono) : Prop := match s with 0 => u = [n + 1; 0] \/ u = [1; n] | _ => u = [n; 1] \/ u = [0; n + 1] end.
Lemma sdiv2_fields n l : Hdiv_serendipity 2 2 n = Ok l -> fields_in 2 (sdiv2 n) l.
Proof. intros E. injection E as <-. in_fields; field_ok. Qed.
Ltac coef1 := cbn [nth]; rewrite ?coef_one; destruct (mono_eq_dec _ _); [lra|contradiction].
Lemma sdiv2_deg n ms l : 1 <= n -> polynomial_set_1d 2 n = Ok ms -> Hdiv_serendipity 2 2 n = Ok l ->
  degrees_right [0; 1] CQuadrilateral (span (vectorise 2 ms ++ l)) (Z.of_nat n / 2) (Z.of_nat n + 1) (Z.of_nat n) (Z.of_nat n + 1).
Proof.
  intros Hn E El. assert (F := sdiv2_fields n l El). injection El as <-. destruct (div_spec n 2 ltac:(lia)) as (Q & D). change (Z.of_nat 2) with 2%Z in Q. rewrite Q. remember (n / 2) as h eqn:Eh. clear Eh Q.
  replace (Z.of_nat n + 1)%Z with (Z.of_nat (n + 1)) at 2 by lia.
  apply (enriched_degrees CQuadrilateral n ms _ (sdiv2 n) (fun _ _ => False)); try assumption; try (cbn; tauto); try lia.
  - cbn [tdim]. intros s u _ _ H. destruct s; destruct H as [-> | ->]; (split; [all_le|cbn; lia]).
  - cbn [tdim]. intros m s u Hm _ H. left. known_mono; lia.
  - intros m Hm. destruct (Nat.eq_dec n 1) as [->|N1].
    + apply (excluded_W 2 1 ms _ [(1%R, (0, [1; 1])); ((-2)%R, (1, [0; 2]))] 0 [1; 1]); try assumption; try reflexivity; [lia|repeat constructor|in_fields; weigh|cbn; tauto|show_mono|weigh].
    + apply (excluded_low 2 n ms _ (sdiv2 n) 0 [h + 1; h + 1]); try assumption; try reflexivity; try lia; [cbn; tauto|show_mono|cbn; lia|].
      cbn. intros [K|K]; injection K; lia.
  - exists 0, [0; n + 1]. split; [cbn; tauto|]. split; [reflexivity|]. split; [cbn; lia|]. cbn. intros [K|K]; injection K; lia.
  - exists [[(1%Z, [n + 1; 0])]; [(Z.of_nat (n + 1), [n; 1])]], 0, [n + 1; 0], 0. split; [left; reflexivity|]. split; [reflexivity|]. split; [coef1|reflexivity].
  - exists [[(1%Z, [n + 1; 0])]; [(Z.of_nat (n + 1), [n; 1])]], 0, [n + 1; 0]. split; [left; reflexivity|]. split; [reflexivity|]. split; [coef1|cbn; lia].
Qed.
Definition scurl2 (n s : nat) (u : mono) : Prop := match s with 0 => u = [n; 1] \/ u = [0; n + 1] | _ => u = [n + 1; 0] \/ u = [1; n] end.
Lemma scurl2_fields n l : Hcurl_serendipity 2 2 n = Ok l -> fields_in 2 (scurl2 n) l.
Proof. intros E. injection E as <-. in_fields; field_ok. Qed.
Lemma scurl2_deg n ms l : 1 <= n -> polynomial_set_1d 2 n = Ok ms -> Hcurl_serendipity 2 2 n = Ok l ->
  degrees_right [0; 1] CQuadrilateral (span (vectorise 2 ms ++ l)) (Z.of_nat n / 2) (Z.of_nat n + 1) (Z.of_nat n) (Z.of_nat n + 1).
Proof.
  intros Hn E El. assert (F := scurl2_fields n l El). injection El as <-. destruct (div_spec n 2 ltac:(lia)) as (Q & D). change (Z.of_nat 2) with 2%Z in Q. rewrite Q. remember (n / 2) as h eqn:Eh. clear Eh Q.
  replace (Z.of_nat n + 1)%Z with (Z.of_nat (n + 1)) at 2 by lia.
  apply (enriched_degrees CQuadrilateral n ms _ (scurl2 n) (fun _ _ => False)); try assumption; try (cbn; tauto); try lia.
  - cbn [tdim]. intros s u _ _ H. destruct s; destruct H as [-> | ->]; (split; [all_le|cbn; lia]).
  - cbn [tdim]. intros m s u Hm _ H. left. known_mono; lia.
  - intros m Hm. destruct (Nat.eq_dec n 1) as [->|N1].
    + apply (excluded_W 2 1 ms _ [(1%R, (0, [1; 1])); (2%R, (1, [2; 0]))] 0 [1; 1]); try assumption; try reflexivity; [lia|repeat constructor|in_fields; weigh|cbn; tauto|show_mono|weigh].
    + apply (excluded_low 2 n ms _ (scurl2 n) 0 [h + 1; h + 1]); try assumption; try reflexivity; try lia; [cbn; tauto|show_mono|cbn; lia|].
      cbn. intros [K|K]; injection K; lia.
  - exists 0, [n + 1; 0]. split; [cbn; tauto|]. split; [reflexivity|]. split; [cbn; lia|]. cbn. intros [K|K]; injection K; lia.
  - exists [[(1%Z, [0; n + 1])]; [(Z.of_nat (n + 1), [1; n])]], 0, [0; n + 1], 1. split; [right; left; reflexivity|]. split; [reflexivity|]. split; [coef1|reflexivity].
  - exists [[(1%Z, [0; n + 1])]; [(Z.of_nat (n + 1), [1; n])]], 0, [0; n + 1]. split; [right; left; reflexivity|]. split; [reflexivity|]. split; [coef1|cbn; lia].
Qed.
Definition ac2 (n s : nat) (u : mono) : Prop := list_sum u = n + 1 /\ 1 <= nth s u 0.
Ltac entries := intros i v; rewrite !vcomp_veval; unfold unit; cbn [map Nat.eqb]; destruct i as [|[|[|[|i]]]]; cbn [nth]; try (destruct i; cbn [nth]); unfold zeval; cbn [fold_right fst snd]; numbers; change (1 + 1)%nat with 2%nat; lra.
Lemma ac_deg_pos n ms l : 1 <= n -> polynomial_set_1d 2 n = Ok ms -> Hdiv_serendipity 2 2 n = Ok l ->
  degrees_right [0; 1] CQuadrilateral (span (vectorise 2 ms ++ l ++ map (fun i => [[(1%Z, [i + 1; n - i])]; [(1%Z, [i; 1 + n - i])]]) (range (n + 1))))
    (if (Z.of_nat n <? 2)%Z then Z.of_nat n else Z.of_nat n / 2) (Z.of_nat n + 1) (Z.of_nat n) (Z.of_nat n + 1).
Proof.
  intros Hn E El. injection El as <-. destruct (div_spec n 2 ltac:(lia)) as (Q & D). change (Z.of_nat 2) with 2%Z in Q. rewrite Q. remember (n / 2) as h eqn:Eh. clear Eh Q.
  rewrite (map_ext_in (fun i => [[(1%Z, [i + 1; n - i])]; [(1%Z, [i; 1 + n - i])]]) (fun i => [[(1%Z, [i + 1; n - i])]; [(1%Z, [i; n - i + 1])]]))
    by (intros i Hi; apply in_range in Hi; replace (1 + n - i) with (n - i + 1) by lia; reflexivity).
  replace (Z.of_nat n + 1)%Z with (Z.of_nat (n + 1)) at 2 by lia.
  match goal with |- context [vectorise 2 ms ++ ?l] => assert (F : fields_in 2 (ac2 n) l) end.
  { intros p Hp. unfold ac2. apply in_app_or in Hp as [Hp|Hp]; revert p Hp; in_fields; [field_ok|field_ok|apply in_range in Hp; field_ok]; lia. }
  apply (enriched_degrees CQuadrilateral n ms _ (ac2 n) (fun _ u => n = 1 /\ u = [1; 1])); try assumption; try (cbn; tauto); try lia.
  - cbn [tdim]. intros s u Hs L (H1 & H2). destruct u as [|x [|y [|]]]; try discriminate L. cbn in H1. split; [all_le|cbn; lia].
  - intros s u Hs (-> & ->). destruct Hs as [<-|[<-|[]]]; change (range (tdim CQuadrilateral)) with [0; 1].
    + apply (span_add _ (veval [[(Z.of_nat (1 + 1), [1; 1])]; [(1%Z, [0; 1 + 1])]]) (veval [[((-1)%Z, [1; 1])]; [((-1)%Z, [0; 2])]])).
      * apply span_in, in_or_app; right; right; left; reflexivity.
      * apply (span_scale _ (-1)%R (veval [[(1%Z, [1; 1])]; [(1%Z, [0; 2])]])); [|entries]. apply span_in, in_or_app. right. apply in_or_app. right. apply (in_mapped _ _ 0); [reflexivity|apply in_range; lia].
      * entries.
    + apply (span_add _ (veval [[(1%Z, [1 + 1; 0])]; [(Z.of_nat (1 + 1), [1; 1])]]) (veval [[((-1)%Z, [2; 0])]; [((-1)%Z, [1; 1])]])).
      * apply span_in, in_or_app; right; left; reflexivity.
      * apply (span_scale _ (-1)%R (veval [[(1%Z, [2; 0])]; [(1%Z, [1; 1])]])); [|entries]. apply span_in, in_or_app. right. apply in_or_app. right. apply (in_mapped _ _ 1); [reflexivity|apply in_range; lia].
      * entries.
  - intros m s u Hm _ (L & H). destruct u as [|x [|y [|]]]; try discriminate L. pose proof (H 0) as X. pose proof (H 1) as Y. cbn [nth] in X, Y. clear H.
    change (list_sum [x; y]) with (x + (y + 0)). destruct (Z.ltb_spec (Z.of_nat n) 2) as [K|K]; [|left; lia].
    destruct (Nat.eq_dec x 1) as [->|]; [destruct (Nat.eq_dec y 1) as [->|]|]; [right; split; [lia|reflexivity]|left; lia|left; lia].
  - intros m Hm. destruct (Z.ltb_spec (Z.of_nat n) 2) as [K|K].
    + assert (n = 1) by lia. subst n. apply (excluded_low 2 1 ms _ (ac2 1) 0 [0; 2]); try assumption; try reflexivity; try lia.
      * cbn; tauto.
      * show_mono.
      * cbn. lia.
      * intros (_ & X). cbn in X. lia.
    + destruct (Nat.eq_dec (h + h) n) as [En|En].
      * apply (excluded_low 2 n ms _ (ac2 n) 0 [h + 1; h + 1]); try assumption; try reflexivity; try lia.
        -- cbn; tauto.
        -- show_mono.
        -- cbn. lia.
        -- intros (X & _). cbn in X. lia.
      * assert (n = h + h + 1) by lia.
        apply (excluded_W 2 n ms _ [(1%R, (0, [h + 1; h + 1])); ((-1)%R, (1, [h; h + 2]))] 0 [h + 1; h + 1]); try assumption; try reflexivity; try lia.
        -- apply Forall_cons; [cbn; lia|]. apply Forall_cons; [cbn; lia|apply Forall_nil].
        -- intros p Hp. apply in_app_or in Hp as [Hp|Hp]; revert p Hp; in_fields; [weigh|weigh|apply in_range in Hp; weigh].
        -- cbn; tauto.
        -- show_mono.
        -- weigh.
  - exists 0, [0; n + 1]. split; [cbn; tauto|]. split; [reflexivity|]. split; [cbn; lia|]. intros (_ & X). cbn in X. lia.
  - exists [[(1%Z, [n + 1; 0])]; [(Z.of_nat (n + 1), [n; 1])]], 0, [n + 1; 0], 0. split; [left; reflexivity|]. split; [reflexivity|]. split; [coef1|reflexivity].
  - exists [[(1%Z, [n + 1; 0])]; [(Z.of_nat (n + 1), [n; 1])]], 0, [n + 1; 0]. split; [left; reflexivity|]. split; [reflexivity|]. split; [coef1|cbn; lia].
Qed.
Lemma ac_deg_zero ms : polynomial_set_1d 2 0 = Ok ms ->
  degrees_right [0; 1] CQuadrilateral (span (vectorise 2 ms ++ [[[(1%Z, [1; 0])]; []]; [[]; [(1%Z, [0; 1])]]])) 0 1 0 1.
Proof.
  intros E. apply (enriched_degrees CQuadrilateral 0 ms _ (ac2 0) (fun _ _ => False) 0 1); try assumption; try (cbn; tauto); try lia.
  - intros p Hp. unfold ac2. revert p Hp. in_fields; field_ok; lia.
  - cbn [tdim]. intros s u Hs L (H1 & H2). destruct u as [|x [|y [|]]]; try discriminate L. cbn in H1. split; [all_le|cbn; lia].
  - cbn [tdim]. intros m s u Hm _ H. left. known_mono; lia.
  - intros m Hm. apply (excluded_low 2 0 ms _ (ac2 0) 0 [0; 1]); try assumption; try reflexivity; try lia.
    + intros p Hp. unfold ac2. revert p Hp. in_fields; field_ok; lia.
    + cbn; tauto.
    + show_mono.
    + cbn. lia.
    + intros (_ & X). cbn in X. lia.
  - exists 0, [0; 1]. split; [cbn; tauto|]. split; [reflexivity|]. split; [reflexivity|]. intros (_ & X). cbn in X. lia.
  - exists [[(1%Z, [1; 0])]; []], 0, [1; 0], 0. split; [left; reflexivity|]. split; [reflexivity|]. split; [coef1|reflexivity].
  - exists [[(1%Z, [1; 0])]; []], 0, [1; 0]. split; [left; reflexivity|]. split; [reflexivity|]. split; [coef1|reflexivity].
Qed.

(** ** Serendipity H(div) and BDDF on hexahedra *)
Ltac compute_field := match goal with |- wval _ ?p = _ => let v := eval cbv in p in change p with v end.
Definition div3 (n s : nat) (u : mono) : Prop := list_sum u = n + 1 /\ 1 <= nth s u 0 /\ (nth s u 0 = 1 \/ nth 0 u 0 = 0 \/ nth 1 u 0 = 0 \/ nth 2 u 0 = 0).
Lemma div3_degrees n ms qs (k : R) : 1 <= n -> polynomial_set_1d 3 n = Ok ms -> fields_in 3 (div3 n) qs ->
  (n = 2 -> forall p, In p qs -> wval [(1%R, (0, [1; 1; 1])); (k, (1, [0; 2; 1]))] p = 0%R) ->
  (exists q j u i, In q qs /\ length u = 3 /\ coef (z2r (nth j q [])) u <> 0%R /\ nth i u 0 = n + 1 /\ list_sum u = n + 1) ->
  degrees_right [0; 1; 2] CHexahedron (span (vectorise 3 ms ++ qs)) (Z.of_nat n / 3) (Z.of_nat n + 1) (Z.of_nat n) (Z.of_nat n + 1).
Proof.
  intros Hn E F HW (q & j & u & ii & Iq & Lu & Nq & Nu & Su). destruct (div_spec n 3 ltac:(lia)) as (Q & D). change (Z.of_nat 3) with 3%Z in Q. rewrite Q. remember (n / 3) as h eqn:Eh. clear Eh Q.
  replace (Z.of_nat n + 1)%Z with (Z.of_nat (n + 1)) at 2 by lia.
  apply (enriched_degrees CHexahedron n ms _ (div3 n) (fun _ _ => False)); try assumption; try (cbn; tauto); try lia.
  - cbn [tdim]. intros s w Hs L (H1 & H2). destruct w as [|x [|y [|z [|]]]]; try discriminate L. cbn in H1. split; [clear H2; all_le|cbn; lia].
  - cbn [tdim]. intros m s w Hm _ (L & H). left. destruct w as [|x [|y [|z [|]]]]; try discriminate L. pose proof (H 0). pose proof (H 1). pose proof (H 2). cbn in *. lia.
  - intros m Hm. destruct (Nat.eq_dec n 2) as [->|N2].
    + apply (excluded_W 3 2 ms _ [(1%R, (0, [1; 1; 1])); (k, (1, [0; 2; 1]))] 0 [1; 1; 1]); try assumption; try reflexivity; [lia|repeat constructor|apply HW; reflexivity|cbn; tauto|show_mono|weigh].
    + apply (excluded_low 3 n ms _ (div3 n) 0 [h + 1; h + 1; h + 1]); try assumption; try reflexivity; try lia; [cbn; tauto|show_mono|cbn; lia|].
      intros (X1 & X2 & X3). cbn in X1, X2, X3. lia.
  - exists 0, [0; n + 1; 0]. split; [cbn; tauto|]. split; [reflexivity|]. split; [cbn; lia|]. intros (_ & X & _). cbn in X. lia.
  - exists q, j, u, ii. tauto.
  - exists q, j, u. tauto.
Qed.
Lemma sdiv3_deg n ms l : 1 <= n -> polynomial_set_1d 3 n = Ok ms -> Hdiv_serendipity 3 3 n = Ok l ->
  degrees_right [0; 1; 2] CHexahedron (span (vectorise 3 ms ++ l)) (Z.of_nat n / 3) (Z.of_nat n + 1) (Z.of_nat n) (Z.of_nat n + 1).
Proof.
  intros Hn E El. unfold Hdiv_serendipity in El. cbn [Nat.eqb negb] in El. injection El as <-. destruct (Nat.eqb_spec n 0) as [|_]; [lia|].
  apply (div3_degrees n ms _ 4); try assumption.
  - intros p Hp. apply in_map_iff in Hp as (f & <- & Hp). apply in_flat_map in Hp as (i & Hi & Hp). apply in_range in Hi. unfold div3.
    each_cell Hp; field_ok; lia.
  - intros ->. intros p Hp. apply in_map_iff in Hp as (f & <- & Hp). cbn in Hp. repeat destruct Hp as [<-|Hp]; try destruct Hp; compute_field; weigh.
  - exists (vcurl [[]; [(1%Z, [1; n; 1 + (n - n)])]; [((-1)%Z, [1; 1 + n; n - n])]]), 1, [0; 1 + n; n - n], 1.
    split; [apply in_map, (in_flat _ _ n); [apply in_range; lia|left; reflexivity]|]. split; [reflexivity|]. split; [|cbn; lia].
    cbn [vcurl nth zdiff zadd zneg map app fst snd dec_at]. cbn. destruct (mono_eq_dec _ _); [lra|contradiction].
Qed.
Lemma bddf_deg' n ms : 1 <= n -> polynomial_set_1d 3 n = Ok ms ->
  degrees_right [0; 1; 2] CHexahedron (span (vectorise 3 ms ++ map vcurl (
    [ [[]; []; [(1%Z, [n + 1; 1; 0])]]; [[]; [(1%Z, [1; 0; n + 1])]; []]; [[(1%Z, [0; n + 1; 1])]; []; []] ]
    ++ flat_map (fun i => [ [[]; []; [(1%Z, [1; i + 1; n - i])]]; [[]; [(1%Z, [i + 1; n - i; 1])]; []];
                            [[(1%Z, [n - i; 1; i + 1])]; []; []] ]) (range2 1 (n + 1))))) (Z.of_nat n / 3) (Z.of_nat n + 1) (Z.of_nat n) (Z.of_nat n + 1).
Proof.
  intros Hn E. apply (div3_degrees n ms _ 2); try assumption.
  - intros p Hp. apply in_map_iff in Hp as (f & <- & Hp). apply in_app_or in Hp as [Hp|Hp].
    + unfold div3. each_cell Hp; field_ok; lia.
    + apply in_flat_map in Hp as (i & Hi & Hp). apply in_range2 in Hi. unfold div3. each_cell Hp; field_ok; lia.
  - intros ->. intros p Hp. apply in_map_iff in Hp as (f & <- & Hp). cbn in Hp. repeat destruct Hp as [<-|Hp]; try destruct Hp; compute_field; weigh.
  - exists (vcurl [[]; []; [(1%Z, [n + 1; 1; 0])]]), 0, [n + 1; 0; 0], 0. split; [left; reflexivity|]. split; [reflexivity|]. split; [|cbn; lia].
    cbn. destruct (mono_eq_dec _ _); [lra|contradiction].
Qed.

(** ** Serendipity H(curl) on hexahedra *)
Definition scurl3 (n s : nat) (u : mono) : Prop :=
  (nth 0 u 0 <= n + 1 /\ nth 1 u 0 <= n + 1 /\ nth 2 u 0 <= n + 1) /\ list_sum u <= n + 2 /\ (nth 0 u 0 <= 1 \/ nth 1 u 0 <= 1 \/ nth 2 u 0 <= 1) /\ (s = 0 -> nth 0 u 0 <= n).
Lemma scurl3_grad n u s : In u (serendipity_set_1d 3 (n + 1)) ->
  Forall (fun t => length (snd t) = 3 /\ scurl3 n s (snd t)) (nth s (map (fun i => zdiff i [(1%Z, u)]) (range 3)) []).
Proof.
  intros H. apply serendipity_set_1d_in in H as (L & H & H'); [|lia]. destruct u as [|x [|y [|z [|]]]]; try discriminate L.
  change (mdeg [x; y; z]) with (x + (y + (z + 0))) in *. unfold superlinear_degree in H'. cbn [fold_right map] in H'.
  assert (K : scurl3 n 1 [x - 1; y; z] /\ scurl3 n 1 [x; y - 1; z] /\ scurl3 n 1 [x; y; z - 1] /\ x - 1 <= n).
  { unfold scurl3. cbn. destruct x as [|[|x]], y as [|[|y]], z as [|[|z]]; cbn in *; lia. }
  destruct K as (K1 & K2 & K3 & K4). unfold scurl3 in *.
  destruct s as [|[|[|s]]]; [| | |cbn; destruct s; apply Forall_nil]; cbn in *; (apply Forall_cons; [|apply Forall_nil]); cbn; lia.
Qed.
Lemma span_sum3 ps p q r (a b c : R) (f : vfun) : In p ps -> In q ps -> In r ps ->
  (forall i v, vcomp f i v = a * vcomp (veval p) i v + b * vcomp (veval q) i v + c * vcomp (veval r) i v)%R -> span ps f.
Proof.
  intros Hp Hq Hr H. destruct (span_in _ _ Hp) as (x & Lx & Ex), (span_in _ _ Hq) as (y & Ly & Ey), (span_in _ _ Hr) as (z & Lz & Ez).
  exists (map (fun t => (fst t + snd t)%R) (combine (map (fun t => (fst t + snd t)%R) (combine (map (Rmult a) x) (map (Rmult b) y))) (map (Rmult c) z))).
  assert (L1 : length (map (Rmult a) x) = length (map (Rmult b) y)) by (rewrite !map_length; congruence).
  split; [rewrite map_length, combine_length, map_length, combine_length; rewrite (map_length _ x), (map_length _ y), (map_length _ z), Lx, Ly, Lz, !Nat.min_id; reflexivity|].
  intros i v. rewrite H, Ex, Ey, Ez, lincomb_add; [rewrite lincomb_add by exact L1; rewrite !lincomb_scale; reflexivity|].
  rewrite map_length, combine_length, (map_length _ x), (map_length _ y), (map_length _ z), Lx, Ly, Lz. apply Nat.min_id.
Qed.
Ltac in_curl := apply in_or_app; right; vm_compute; repeat first [left; reflexivity|right].
Lemma scurl3_deg n ms l : 1 <= n -> polynomial_set_1d 3 n = Ok ms -> Hcurl_serendipity 3 3 n = Ok l ->
  degrees_right [0; 1; 2] CHexahedron (span (vectorise 3 ms ++ l)) (if ((Z.of_nat n =? 2) && (3 =? 3))%Z%bool then 1 else Z.of_nat n / 3) (Z.of_nat n + 1) (Z.of_nat n) (Z.of_nat n + 3 - 1).
Proof.
  intros Hn E El. assert (F : fields_in 3 (scurl3 n) l).
  { cbn [Hcurl_serendipity Nat.eqb negb] in El. injection El as <-. intros p Hp. apply in_app_or in Hp as [Hp|Hp].
    - destruct (Nat.eqb_spec n 1) as [->|N1].
      + unfold scurl3. repeat destruct Hp as [<-|Hp]; try destruct Hp; field_ok; lia.
      + apply in_flat_map in Hp as (i & Hi & Hp). apply in_range in Hi. unfold scurl3. remember (n - 1 - i) as r eqn:Er. each_cell Hp; field_ok; lia.
    - apply in_map_iff in Hp as (u & <- & Hu). split; [reflexivity|]. intros s. apply scurl3_grad, Hu. }
  assert (GR : forall u, length u = 3 -> n + 1 < list_sum u -> superlinear_degree u <= n + 1 -> In (map (fun i => zdiff i [(1%Z, u)]) (range 3)) l).
  { intros u L1 L2 L3. cbn [Hcurl_serendipity Nat.eqb negb] in El. injection El as <-. apply in_or_app. right. apply in_map_iff. exists u. split; [reflexivity|]. apply serendipity_set_1d_in; [lia|]. tauto. }
  destruct (div_spec n 3 ltac:(lia)) as (Q & D). change (Z.of_nat 3) with 3%Z in Q. rewrite Q. remember (n / 3) as h eqn:Eh. clear Eh Q.
  replace (Z.of_nat n + 3 - 1)%Z with (Z.of_nat (n + 2)) by lia.
  apply (enriched_degrees CHexahedron n ms _ (scurl3 n) (fun _ u => n = 2 /\ u = [1; 1; 1])); try assumption; try (cbn; tauto); try lia.
  - cbn [tdim]. intros s w Hs L (H1 & H2 & _). destruct w as [|x [|y [|z [|]]]]; try discriminate L. cbn in H1, H2. split; [clear H2; all_le|cbn; lia].
  - intros s u Hs (-> & ->). injection El as <-. destruct Hs as [<-|[<-|[<-|[]]]]; change (range (tdim CHexahedron)) with [0; 1; 2].
    + apply (span_sum3 _ [[(1%Z, [1; 1; 1])]; []; [((-1)%Z, [2; 1; 0])]] [[(1%Z, [1; 1; 1])]; [((-1)%Z, [2; 0; 1])]; []]
        [[(2%Z, [1; 1; 1])]; [(1%Z, [2; 0; 1])]; [(1%Z, [2; 1; 0])]] (1 / 4) (1 / 4) (1 / 4)); [in_curl|in_curl|in_curl|entries].
    + apply (span_sum3 _ [[]; [(1%Z, [1; 1; 1])]; [((-1)%Z, [1; 2; 0])]] [[(1%Z, [0; 2; 1])]; [((-1)%Z, [1; 1; 1])]; []]
        [[(1%Z, [0; 2; 1])]; [(2%Z, [1; 1; 1])]; [(1%Z, [1; 2; 0])]] (1 / 4) (- (1 / 4)) (1 / 4)); [in_curl|in_curl|in_curl|entries].
    + apply (span_sum3 _ [[(1%Z, [0; 1; 2])]; []; [((-1)%Z, [1; 1; 1])]] [[]; [(1%Z, [1; 0; 2])]; [((-1)%Z, [1; 1; 1])]]
        [[(1%Z, [0; 1; 2])]; [(1%Z, [1; 0; 2])]; [(2%Z, [1; 1; 1])]] (- (1 / 4)) (- (1 / 4)) (1 / 4)); [in_curl|in_curl|in_curl|entries].
  - cbn [tdim]. intros m s w Hm _ (L & H). destruct w as [|x [|y [|z [|]]]]; try discriminate L. pose proof (H 0). pose proof (H 1). pose proof (H 2). cbn [nth] in *.
    change (list_sum [x; y; z]) with (x + (y + (z + 0))). destruct (Z.eqb_spec (Z.of_nat n) 2) as [K|K]; cbn in Hm; [|left; lia].
    destruct (le_lt_dec (x + y + z) 2); [left; lia|]. right. split; [lia|]. apply mono3_eq; lia.
  - intros m Hm. destruct (Nat.eq_dec n 1) as [->|N1].
    + apply (excluded_W 3 1 ms _ [(1%R, (0, [1; 1; 1])); ((-2)%R, (1, [2; 0; 1]))] 0 [1; 1; 1]); try assumption; try reflexivity; [lia|repeat constructor| |cbn; tauto|cbn in Hm; show_mono|weigh].
      intros p Hp. injection El as <-. vm_compute in Hp. repeat destruct Hp as [<-|Hp]; try destruct Hp; weigh.
    + assert (exists r, r = Nat.max 2 (h + 1)) as (r & Er) by (eexists; reflexivity).
      apply (excluded_low 3 n ms _ (scurl3 n) 0 [r; r; r]); try assumption; try reflexivity; try lia; [cbn; tauto| |cbn; lia|].
      * destruct (Z.eqb_spec (Z.of_nat n) 2) as [K|K]; cbn [andb Z.eqb] in Hm; [change (3 =? 3)%positive with true in Hm|]; cbv iota in Hm; show_mono.
      * intros (X1 & X2 & X3 & _). cbn in X1, X2, X3. lia.
  - exists 0, [n + 1; 0; 0]. split; [cbn; tauto|]. split; [reflexivity|]. split; [cbn; lia|]. intros (_ & _ & _ & X). cbn in X. lia.
  - eexists _, 0, [0; n + 1; 0], 1. split; [apply (GR [1; n + 1; 0])|]; try reflexivity.
    + cbn; lia.
    + cbn [superlinear_degree Nat.eqb]. destruct (n + 1 =? 1); lia.
    + split; [reflexivity|]. split; [|reflexivity]. cbn. destruct (mono_eq_dec _ _); [lra|contradiction].
  - eexists _, 1, [n + 1; 0; 1]. split; [apply (GR [n + 1; 1; 1])|]; try reflexivity.
    + cbn; lia.
    + cbn [superlinear_degree Nat.eqb]. destruct (n + 1 =? 1); lia.
    + split; [reflexivity|]. split; [|cbn; lia]. cbn. destruct (mono_eq_dec _ _); [lra|contradiction].
Qed.
