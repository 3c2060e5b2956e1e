(** The degree attributes of the elements with enriched polynomial sets, from their constructors (C56). *)
From Coq Require Import String ZArith Arith Bool Reals Lia Lra List.
From Verif Require Import Base PolyLib PolySetsModel PolySetsProofs ReferencesModel LagrangeModel FamiliesModel FamiliesMoments FamiliesBuilt
  DegreesModel DegreesSpec DegreesLib DegreesUnits DegreesTrimmed DegreesFamilies DegreesEnriched.
Import ListNotations.
Local Open Scope nat_scope.
Set Bullet Behavior "Strict Subproofs".

Lemma serendipity_div_deg k c n v e : 1 <= n -> In c (references SerendipityDiv) -> construct k SerendipityDiv (default c) n v = Ok e -> ok_degrees SerendipityDiv c n e.
Proof.
  intros Hn Hc E. start k Hc E; unmap.
  - eapply degrees_right_eq; [eapply sdiv2_deg; eassumption|..]; cbn [lagrange_subdegree lagrange_superdegree polynomial_subdegree polynomial_superdegree tdim Z.of_nat Pos.of_succ_nat Pos.succ]; lia.
  - eapply degrees_right_eq; [eapply sdiv3_deg; eassumption|..]; cbn [lagrange_subdegree lagrange_superdegree polynomial_subdegree polynomial_superdegree tdim Z.of_nat Pos.of_succ_nat Pos.succ]; lia.
Qed.
Lemma serendipity_curl_deg k c n v e : 1 <= n -> In c (references SerendipityCurl) -> construct k SerendipityCurl (default c) n v = Ok e -> ok_degrees SerendipityCurl c n e.
Proof.
  intros Hn Hc E. start k Hc E; unmap.
  - eapply degrees_right_eq; [eapply scurl2_deg; eassumption|..]; cbn [lagrange_subdegree lagrange_superdegree polynomial_subdegree polynomial_superdegree tdim Z.of_nat Pos.of_succ_nat Pos.succ]; try lia.
    rewrite andb_false_r. reflexivity.
  - eapply degrees_right_eq; [eapply scurl3_deg; eassumption|..]; cbn [lagrange_subdegree lagrange_superdegree polynomial_subdegree polynomial_superdegree tdim Z.of_nat Pos.of_succ_nat Pos.succ]; try lia.
Qed.
Lemma bddf_deg k c n v e : 1 <= n -> In c (references BDDF) -> construct k BDDF (default c) n v = Ok e -> ok_degrees BDDF c n e.
Proof.
  intros Hn Hc E. start k Hc E. unfold bddf_polyset, asserted, polynomial_set_vector in *.
  match goal with H : rbind (rmap _ ?r) _ = Ok _ |- _ => destruct r as [ms|] eqn:Em; [|discriminate H]; injection H as <- end.
  eapply degrees_right_eq; [eapply bddf_deg'; eassumption|..]; cbn [lagrange_subdegree lagrange_superdegree polynomial_subdegree polynomial_superdegree tdim]; lia.
Qed.
Lemma ac_deg k c n v e : In c (references ArbogastCorrea) -> construct k ArbogastCorrea (default c) n v = Ok e -> ok_degrees ArbogastCorrea c n e.
Proof.
  intros Hc E. start k Hc E. unfold ac_poly, polynomial_set_vector in *.
  match goal with H : rbind (rmap _ ?r) _ = Ok _ |- _ => destruct r as [ms|] eqn:Em; [|discriminate H]; cbn [rmap rbind] in H; rename H into P end.
  destruct (Nat.eqb_spec n 0) as [->|N0].
  - injection P as <-. eapply degrees_right_eq; [apply ac_deg_zero; exact Em|..]; reflexivity.
  - injection P as <-. eapply degrees_right_eq; [apply (ac_deg_pos n ms _ ltac:(lia) Em eq_refl)|..]; cbn [lagrange_subdegree lagrange_superdegree polynomial_subdegree polynomial_superdegree tdim]; lia.
Qed.

(** ** Terms with coefficient zero make no difference *)
Definition clean (p : vpoly) : vpoly := map (filter (fun t => negb (fst t =? 0)%Z)) p.
Lemma zeval_filter z v : zeval (filter (fun t => negb (fst t =? 0)%Z) z) v = zeval z v.
Proof.
  unfold zeval. induction z as [|t z IH]; [reflexivity|]. cbn [filter]. destruct (Z.eqb_spec (fst t) 0) as [E|N]; cbn [negb fold_right map]; rewrite IH; [rewrite E|]; cbn; lra.
Qed.
Lemma veval_clean p v : veval (clean p) v = veval p v.
Proof. unfold veval, clean. rewrite map_map. apply map_ext. intros z. apply zeval_filter. Qed.
Lemma span_clean ps f : span (map clean ps) f <-> span ps f.
Proof.
  unfold span, vin_span. rewrite !map_length. rewrite map_map.
  split; intros (cs & L & E); exists cs; (split; [exact L|]); intros c v; rewrite E; clear - ps; revert ps; induction cs as [|x cs IH]; intros [|p ps]; try reflexivity; cbn [map lincomb fold_right]; unfold lincomb in *; cbn; rewrite IH; unfold vcomp; rewrite veval_clean; reflexivity.
Qed.
Lemma degrees_clean pattern c ps l1 l2 p1 p2 : degrees_right pattern c (span (map clean ps)) l1 l2 p1 p2 -> degrees_right pattern c (span ps) l1 l2 p1 p2.
Proof.
  intros (H1 & H2 & H3 & H4).
  assert (SUB : forall L k, subdegree pattern L (span (map clean ps)) k -> subdegree pattern L (span ps) k).
  { intros L k H m. rewrite <- (H m). split; intros K F HF; apply span_clean, K, HF. }
  assert (SUP : forall L k, superdegree pattern L (span (map clean ps)) k -> superdegree pattern L (span ps) k).
  { intros L k H m. rewrite <- (H m). split; intros K F HF; apply K, span_clean, HF. }
  split; [apply SUB, H1|]. split; [apply SUP, H2|]. split; [apply SUB, H3|apply SUP, H4].
Qed.
Lemma clean_unit pattern s u : clean (unit pattern s u) = unit pattern s u.
Proof. unfold clean, unit. rewrite map_map. apply map_ext. intros i. destruct (s =? i); reflexivity. Qed.
Lemma coef_clean z u : coef (z2r (filter (fun t => negb (fst t =? 0)%Z) z)) u = coef (z2r z) u.
Proof.
  induction z as [|[a w] z IH]; [reflexivity|]. cbn [filter fst]. destruct (Z.eqb_spec a 0) as [->|N]; cbn [negb].
  - rewrite IH. unfold z2r. cbn [map coef fold_right fst snd]. unfold coef. destruct (mono_eq_dec w u); lra.
  - unfold coef, z2r in *. cbn [map fold_right fst snd]. rewrite IH. reflexivity.
Qed.
Lemma nth_clean j p : nth j (clean p) [] = filter (fun t => negb (fst t =? 0)%Z) (nth j p []).
Proof. unfold clean. change (@nil (Z * mono)) with (filter (fun t : Z * mono => negb (fst t =? 0)%Z) []) at 1. apply map_nth. Qed.
Lemma wval_clean W p : wval W (clean p) = wval W p.
Proof. unfold wval. induction W as [|t W IH]; [reflexivity|]. cbn [fold_right]. rewrite IH, nth_clean, coef_clean. reflexivity. Qed.

(** ** Symmetric matrices on triangles: all of degree n - 1 and some fields of degree n *)
Lemma sym_triangle_degrees n ms qs (W : weights) s u : 1 <= n -> polynomial_set_1d 2 (n - 1) = Ok ms ->
  (forall q, In q qs -> exists a b d, q = [a; b; b; d] /\ forall t, In t (a ++ b ++ d) -> fst t <> 0%Z -> length (snd t) = 2 /\ list_sum (snd t) <= n) ->
  Forall (fun t => length (snd (snd t)) = 2 /\ n <= list_sum (snd (snd t))) W ->
  (forall q, In q qs -> wval W q = 0%R) -> In s sym2 -> length u = 2 -> list_sum u <= n -> wval W (unit sym2 s u) <> 0%R ->
  (exists q j w, In q qs /\ length w = 2 /\ coef (z2r (nth j q [])) w <> 0%R /\ list_sum w = n) ->
  degrees_right [0; 1; 1; 2] CTriangle (span (map (sym_entries sym2) (vectorise 3 ms) ++ qs)) (Z.of_nat n - 1) (Z.of_nat n) (Z.of_nat n - 1) (Z.of_nat n).
Proof.
  intros Hn E HQ HW1 HW2 Hs Lu Su Nu (q & j & w & Iq & Lw & Nw & Sw). apply degrees_clean.
  destruct (units_sym 3 sym2 ms in_sym2) as (U1 & U2).
  assert (EX : forall m, (Z.of_nat n - 1 < Z.of_nat m)%Z -> excluded 2 [0; 1; 1; 2] (map clean (map (sym_entries sym2) (vectorise 3 ms) ++ qs)) (complete 2 m)).
  { intros m Hm. exists W, s, u. split; [exact Hs|]. split; [split; [exact Lu|lia]|]. split; [exact Lu|].
    split; [eapply Forall_impl; [|exact HW1]; cbn; tauto|]. split; [|exact Nu]. intros p Hp. apply in_map_iff in Hp as (p' & <- & Hp). rewrite wval_clean.
    apply in_app_or in Hp as [Hp|Hp]; [|apply HW2, Hp]. destruct (U2 p' Hp) as (s' & v & Hs' & Hv & ->). apply (poly1d_in 2 _ _ ltac:(lia) E) in Hv as (Lv & Sv).
    clear - HW1 Sv Hn. induction HW1 as [|[x [i y]] W (H1 & H2) HW1 IH]; [reflexivity|]. unfold wval. cbn [fold_right fst snd]. fold (wval W (unit sym2 s' v)). rewrite IH.
    replace (coef (z2r (nth i (unit sym2 s' v) [])) y) with 0%R; [lra|].
    destruct (lt_dec i (length sym2)) as [Hi|Hi].
    - rewrite nth_unit by exact Hi. destruct (_ =? _); [|reflexivity]. rewrite coef_one. destruct (mono_eq_dec v y) as [->|]; [cbn [snd] in H2; lia|reflexivity].
    - rewrite nth_overflow by (unfold unit; rewrite map_length; lia). reflexivity. }
  assert (OUT : forall m, (Z.of_nat m < Z.of_nat n)%Z -> outside 2 (map clean (map (sym_entries sym2) (vectorise 3 ms) ++ qs)) (complete 2 m)).
  { intros m Hm. exists (clean q), j, w. split; [apply span_in, in_map, in_or_app; right; exact Iq|]. split; [|split; [exact Lw|split; [rewrite nth_clean, coef_clean; exact Nw|intros (_ & K); lia]]].
    destruct (HQ q Iq) as (a & b & d & -> & H). repeat apply Forall_cons; try apply Forall_nil; apply Forall_forall; intros t Ht; apply filter_In in Ht as (Ht & Nt);
      (apply H; [rewrite !in_app_iff; tauto|]); apply negb_true_iff, Z.eqb_neq in Nt; exact Nt. }
  apply (degrees_mixed [0; 1; 1; 2] CTriangle _ (fun _ => complete 2 (n - 1)) (fun _ => complete 2 n)).
  - intros _ v (L & _). exact L.
  - intros s' v Hs' Hv. apply span_in. rewrite <- clean_unit. apply in_map, in_or_app. left. apply U1; [exact Hs'|]. apply (poly1d_in 2 _ _ ltac:(lia) E), Hv.
  - apply Forall_map, Forall_app. split; apply Forall_forall; intros p Hp.
    + destruct (U2 p Hp) as (s' & v & Hs' & Hv & ->). rewrite clean_unit. apply conform_unit. apply (poly1d_in 2 _ _ ltac:(lia) E) in Hv as (Lv & Sv). split; [exact Lv|lia].
    + destruct (HQ p Hp) as (a & b & d & -> & H). exists (clean [a; b; d]). split; [reflexivity|]. intros i. rewrite nth_clean. apply Forall_forall. intros t Ht. apply filter_In in Ht as (Ht & Nt).
      apply H; [|apply negb_true_iff, Z.eqb_neq in Nt; exact Nt].
      rewrite !in_app_iff. destruct i as [|[|[|i]]]; cbn in Ht; try tauto. destruct i; destruct Ht.
  - intros m s' v Hm _ (L & K). cbn in L. split; [exact L|lia].
  - exact EX.
  - intros m s' v Hm _ (L & K). cbn. split; [exact L|lia].
  - exact OUT.
  - intros m s' v Hm _ (L & K). split; [exact L|lia].
  - exact EX.
  - intros m s' v Hm _ (L & K). split; [exact L|lia].
  - exact OUT.
Qed.
Lemma coef_term a u w : coef (z2r [(a, u)]) w = if mono_eq_dec u w then IZR a else 0%R.
Proof. cbn. destruct (mono_eq_dec u w); cbn; lra. Qed.
Ltac degrees_eq := cbn [lagrange_subdegree lagrange_superdegree polynomial_subdegree polynomial_superdegree tdim]; try lia; try reflexivity.
Lemma naw_deg k c v e : In c (references NonConformingArnoldWinther) -> construct k NonConformingArnoldWinther (default c) 2 v = Ok e -> ok_degrees NonConformingArnoldWinther c 2 e.
Proof.
  intros Hc E. start k Hc E. unfold naw_poly, polynomial_set_vector in *.
  match goal with H : rbind (rmap _ ?r) _ = Ok _ |- _ => destruct r as [ms|] eqn:Em; [|discriminate H]; cbn [rmap rbind] in H; rename H into P' end. injection P' as <-.
  eapply degrees_right_eq; [apply (sym_triangle_degrees 2 ms _ [(1%R, (0, [0; 2]))] 0 [0; 2] ltac:(lia) Em)|..]; degrees_eq.
  - intros q Hq. repeat destruct Hq as [<-|Hq]; try destruct Hq; do 3 eexists; (split; [reflexivity|]); intros t Ht _; cbn in Ht;
      repeat destruct Ht as [<-|Ht]; try destruct Ht; (split; [reflexivity|cbn; lia]).
  - repeat apply Forall_cons; try apply Forall_nil; cbn; lia.
  - in_fields; weigh.
  - cbn; tauto.
  - unfold sym2. weigh.
  - exists [[(1%Z, [2; 0])]; []; []; [(1%Z, [1; 1])]], 0, [2; 0]. split; [cbn; tauto|]. split; [reflexivity|]. split; [coef1|reflexivity].
Qed.
Lemma aw_deg k c n v e : 3 <= n -> In c (references ArnoldWinther) -> construct k ArnoldWinther (default c) n v = Ok e -> ok_degrees ArnoldWinther c n e.
Proof.
  intros Hn Hc E. start k Hc E. unfold aw_poly, polynomial_set_vector in *.
  match goal with H : rbind (rmap _ ?r) _ = Ok _ |- _ => destruct r as [ms|] eqn:Em; [|discriminate H]; cbn [rmap rbind] in H; rename H into P' end. injection P' as <-.
  eapply degrees_right_eq; [apply (sym_triangle_degrees n ms _ [(1%R, (0, [1; n - 1])); (INR n, (1, [0; n]))] 0 [1; n - 1] ltac:(lia) Em)|..]; degrees_eq.
  - intros q Hq. apply in_app_or in Hq as [Hq|Hq].
    + apply in_map_iff in Hq as (i & <- & Hi). apply in_range in Hi. do 3 eexists. split; [reflexivity|]. cbn [app]. intros t Ht Nt.
      repeat destruct Ht as [<-|Ht]; try destruct Ht; (split; [reflexivity|cbn [list_sum fold_right fst snd] in *; nia]).
    + repeat destruct Hq as [<-|Hq]; try destruct Hq; do 3 eexists; (split; [reflexivity|]); intros t Ht _; cbn [app] in Ht;
      repeat destruct Ht as [<-|Ht]; try destruct Ht; (split; [reflexivity|cbn; lia]).
  - repeat apply Forall_cons; try apply Forall_nil; cbn; lia.
  - intros q Hq. apply in_app_or in Hq as [Hq|Hq].
    + apply in_map_iff in Hq as (i & <- & Hi). apply in_range in Hi. unfold wval. cbn [fold_right fst snd nth]. rewrite !coef_term.
      destruct (mono_eq_dec [i; n - i] [1; n - 1]) as [K|K].
      * injection K as -> _. destruct (mono_eq_dec _ _) as [K'|K']; [|exfalso; apply K'; apply mono2_eq; lia].
        replace (n - 1 + 1) with n by lia. replace (n - 1 + 2) with (n + 1) by lia. rewrite opp_IZR, !mult_IZR, <- !INR_IZR_INZ. cbn [INR]. lra.
      * destruct (mono_eq_dec _ _) as [K'|K']; [|lra]. injection K' as K1 K2. assert (i = 0) as -> by (destruct (Nat.eq_dec i 1) as [->|]; [exfalso; apply K; reflexivity|lia]). cbn. lra.
    + repeat destruct Hq as [<-|Hq]; try destruct Hq; unfold wval; cbn [fold_right fst snd nth]; rewrite ?coef_term; try (destruct (mono_eq_dec _ _) as [K|K]; [injection K; lia|]); cbn; lra.
  - cbn; tauto.
  - cbn; lia.
  - unfold wval, unit. cbn [fold_right fst snd nth map sym2 Nat.eqb]. rewrite coef_term. destruct (mono_eq_dec _ _); [|contradiction]. cbn. lra.
  - exists [[]; []; []; [(1%Z, [n; 0])]], 3, [n; 0]. split; [apply in_or_app; right; cbn; tauto|]. split; [reflexivity|]. split; [coef1|cbn; lia].
Qed.

(** ** Elements with a single polynomial set *)
(** the fields are written out; the checks of the lists are computed *)
Definition fits_field (d : nat) (fits : nat -> mono -> bool) (p : vpoly) : bool :=
  (length p =? d) && forallb (fun s => forallb (fun t => fits s (snd t)) (nth s p [])) (range (length p)).
Lemma fits_conform d (fits : nat -> mono -> bool) (B : nat -> mono -> Prop) ps : (forall s u, fits s u = true -> B s u) -> forallb (fits_field d fits) ps = true ->
  Forall (conform (range d) B) ps.
Proof.
  intros HB H. apply Forall_forall. intros p Hp. rewrite forallb_forall in H. specialize (H p Hp). apply andb_true_iff in H as (L & H). apply Nat.eqb_eq in L. rewrite <- L.
  apply conform_vector. intros s. apply Forall_forall. intros t Ht. apply HB. destruct (lt_dec s (length p)) as [Hs|Hs]; [|rewrite nth_overflow in Ht by (apply Nat.nlt_ge; exact Hs); destruct Ht].
  rewrite forallb_forall in H. specialize (H s ltac:(apply in_range; exact Hs)). rewrite forallb_forall in H. exact (H t Ht).
Qed.
Ltac coefs := unfold coef, z2r; cbn [nth map fold_right fst snd]; repeat (destruct (mono_eq_dec _ _) as [?K|?K]; [try discriminate|try contradiction]); lra.
Definition small (d m : nat) (u : mono) : bool := (length u =? d) && (list_sum u <=? m).
Lemma small_complete d m u : small d m u = true <-> complete d m u.
Proof. unfold small, complete. rewrite andb_true_iff, Nat.eqb_eq, Nat.leb_le. tauto. Qed.
Lemma cases_triangle (P : mono -> Prop) : P [0; 0] -> P [1; 0] -> P [0; 1] -> forall u, complete 2 1 u -> P u.
Proof.
  intros A B C [|x [|y [|]]] (L & S'); try discriminate L; cbn in S'.
  destruct x as [|[|x]]; [destruct y as [|[|y]]; [exact A|exact C|lia]|assert (y = 0) as -> by lia; exact B|lia].
Qed.
Lemma mtw_triangle_degrees : degrees_right [0; 1] CTriangle (span mtw_triangle_poly) 1 3 1 3.
Proof.
  assert (C : Forall (conform [0; 1] (fun s u => complete 2 3 u /\ ~ (s = 0 /\ u = [0; 2]))) mtw_triangle_poly).
  { apply (fits_conform 2 (fun s u => small 2 3 u && negb ((s =? 0) && if mono_eq_dec u [0; 2] then true else false))); [|vm_compute; reflexivity].
    intros s u H. apply andb_true_iff in H as (H1 & H2). apply small_complete in H1. split; [exact H1|]. intros (-> & ->). discriminate H2. }
  assert (EX : forall m, (1 < Z.of_nat m)%Z -> excluded 2 [0; 1] mtw_triangle_poly (complete 2 m)).
  { intros m Hm. eapply excluded_B with (s := 0) (u := [0; 2]); [exact C|cbn; tauto|split; [reflexivity|cbn; lia]|reflexivity|]. cbn beta. tauto. }
  assert (OUT : forall m, (Z.of_nat m < 3)%Z -> outside 2 mtw_triangle_poly (complete 2 m)).
  { intros m Hm. exists [[((-1)%Z, [3; 0]); (2%Z, [2; 0]); (3%Z, [1; 2])]; [(3%Z, [2; 1]); ((-4)%Z, [1; 1]); ((-1)%Z, [0; 3])]], 0, [3; 0].
    split; [apply span_in; cbn; tauto|]. split; [repeat constructor|]. split; [reflexivity|]. split; [coefs|]. intros (_ & K). cbn in K. lia. }
  apply (degrees_mixed [0; 1] CTriangle _ (fun _ => complete 2 1) (fun s u => complete 2 3 u /\ ~ (s = 0 /\ u = [0; 2]))); try exact C; try exact EX; try exact OUT.
  - intros s u ((L & _) & _). exact L.
  - intros s u Hs Hu. revert u Hu. apply cases_triangle; destruct Hs as [<-|[<-|[]]]; apply span_in; cbn; tauto.
  - intros m s u Hm _ (L & K). split; [exact L|lia].
  - intros m s u Hm _ ((L & K) & _). cbn. split; [exact L|lia].
  - intros m s u Hm _ (L & K). split; [exact L|lia].
  - intros m s u Hm _ ((L & K) & _). split; [exact L|lia].
Qed.
Lemma cases_tetrahedron (P : mono -> Prop) : P [0; 0; 0] -> P [1; 0; 0] -> P [0; 1; 0] -> P [0; 0; 1] -> forall u, complete 3 1 u -> P u.
Proof.
  intros A B C D [|x [|y [|z [|]]]] (L & S'); try discriminate L; cbn in S'.
  destruct x as [|[|x]]; [|assert (y = 0 /\ z = 0) as (-> & ->) by lia; exact B|lia].
  destruct y as [|[|y]]; [|assert (z = 0) as -> by lia; exact C|lia]. destruct z as [|[|z]]; [exact A|exact D|lia].
Qed.
Lemma mtw_tetrahedron_degrees l : mtw_tetrahedron_poly = Ok l -> degrees_right [0; 1; 2] CTetrahedron (span l) 1 4 1 4.
Proof.
  intros E. vm_compute in E. injection E as El.
  assert (C : Forall (conform [0; 1; 2] (fun s u => complete 3 4 u /\ ~ (s = 0 /\ u = [2; 0; 0]))) l).
  { apply (fits_conform 3 (fun s u => small 3 4 u && negb ((s =? 0) && if mono_eq_dec u [2; 0; 0] then true else false))); [|subst l; vm_compute; reflexivity].
    intros s u H. apply andb_true_iff in H as (H1 & H2). apply small_complete in H1. split; [exact H1|]. intros (-> & ->). discriminate H2. }
  assert (EX : forall m, (1 < Z.of_nat m)%Z -> excluded 3 [0; 1; 2] l (complete 3 m)).
  { intros m Hm. eapply excluded_B with (s := 0) (u := [2; 0; 0]); [exact C|cbn; tauto|split; [reflexivity|cbn; lia]|reflexivity|]. cbn beta. tauto. }
  assert (OUT : forall m, (Z.of_nat m < 4)%Z -> outside 3 l (complete 3 m)).
  { intros m Hm. exists (nth 15 l []), 1, [3; 1; 0]. split; [apply span_in, nth_In; subst l; cbn; lia|]. split; [subst l; repeat constructor|]. split; [reflexivity|].
    split; [subst l; coefs|]. intros (_ & K). cbn in K. lia. }
  apply (degrees_mixed [0; 1; 2] CTetrahedron _ (fun _ => complete 3 1) (fun s u => complete 3 4 u /\ ~ (s = 0 /\ u = [2; 0; 0]))); try exact C; try exact EX; try exact OUT.
  - intros s u ((L & _) & _). exact L.
  - intros s u Hs Hu. revert u Hu. apply cases_tetrahedron; destruct Hs as [<-|[<-|[<-|[]]]]; apply span_in; subst l; cbn; tauto.
  - intros m s u Hm _ (L & K). split; [exact L|lia].
  - intros m s u Hm _ ((L & K) & _). cbn. split; [exact L|lia].
  - intros m s u Hm _ (L & K). split; [exact L|lia].
  - intros m s u Hm _ ((L & K) & _). split; [exact L|lia].
Qed.
Lemma mtw_deg k c n v e : In c (references MardalTaiWinther) -> construct k MardalTaiWinther (default c) n v = Ok e -> ok_degrees MardalTaiWinther c n e.
Proof.
  intros Hc E. assert (N3 : n = 3) by (destruct k; [discriminate E|]; cbn [construct] in E; destruct (Nat.eqb_spec n 3); [assumption|discriminate E]). subst n.
  start k Hc E.
  - eapply degrees_right_eq; [exact mtw_triangle_degrees|..]; degrees_eq.
  - eapply degrees_right_eq; [eapply mtw_tetrahedron_degrees; eassumption|..]; degrees_eq.
Qed.

(** monomials of the prism Nedelec elements *)
Definition prism_fits (n s : nat) (u : mono) : bool :=
  match u with [x; y; z] => (x + y <=? n) && (z <=? (if s =? 2 then n - 1 else n)) | _ => false end.
Lemma prism_degrees_of n l q : 1 <= n -> forallb (fits_field 3 (prism_fits n)) l = true ->
  (forall s u, In s [0; 1; 2] -> lagrange_monomial CPrism (n - 1) u -> In (unit [0; 1; 2] s u) l) ->
  In (unit [0; 1; 2] 0 [0; 0; n]) l -> In q l -> (exists j u, length u = 3 /\ coef (z2r (nth j q [])) u <> 0%R /\ list_sum u = n + n) ->
  degrees_right [0; 1; 2] CPrism (span l) (Z.of_nat n - 1) (Z.of_nat n) (Z.of_nat n - 1) (Z.of_nat n * 2).
Proof.
  intros Hn HC HA HZ Iq (j & w & Lw & Nw & Sw).
  set (B := fun s u => prism_fits n s u = true).
  assert (HB : forall s u, B s u -> exists x y z, u = [x; y; z] /\ x + y <= n /\ z <= n /\ (s = 2 -> z <= n - 1)).
  { intros s u H. unfold B, prism_fits in H. destruct u as [|x [|y [|z [|]]]]; try discriminate H. exists x, y, z. split; [reflexivity|].
    apply andb_true_iff in H as (H1 & H2). apply Nat.leb_le in H1, H2. destruct (Nat.eqb_spec s 2); lia. }
  assert (C : Forall (conform [0; 1; 2] B) l) by (apply (fits_conform 3 (prism_fits n)); [tauto|exact HC]).
  assert (NB : ~ B 2 [0; 0; n]) by (unfold B; cbn; destruct (Nat.leb_spec n (n - 1)); [lia|discriminate]).
  apply (degrees_mixed [0; 1; 2] CPrism _ (fun _ => lagrange_monomial CPrism (n - 1)) B).
  - intros s u H. destruct (HB s u H) as (x & y & z & -> & _). reflexivity.
  - intros s u Hs Hu. apply span_in, HA; assumption.
  - exact C.
  - intros m s u Hm _ (L & K1 & K2). split; [exact L|lia].
  - intros m Hm. apply (excluded_B 3 _ B _ _ 2 [0; 0; n] C); [cbn; tauto|cbn; lia|reflexivity|exact NB].
  - intros m s u Hm _ H. destruct (HB s u H) as (x & y & z & -> & H1 & H2 & _). cbn. lia.
  - intros m Hm. exists (unit [0; 1; 2] 0 [0; 0; n]), 0, [0; 0; n]. split; [apply span_in, HZ|]. split; [repeat constructor|]. split; [reflexivity|]. split; [cbn [unit map Nat.eqb]; coef1|]. cbn. lia.
  - intros m s u Hm _ (L & K). cbn in L. destruct u as [|x [|y [|z [|]]]]; try discriminate L. cbn in *. lia.
  - intros m Hm. apply (excluded_B 3 _ B _ _ 2 [0; 0; n] C); [cbn; tauto|split; [reflexivity|cbn; lia]|reflexivity|exact NB].
  - intros m s u Hm _ H. destruct (HB s u H) as (x & y & z & -> & H1 & H2 & _). split; [reflexivity|cbn; lia].
  - intros m Hm. exists q, j, w. split; [apply span_in, Iq|]. split; [|split; [exact Lw|split; [exact Nw|intros (_ & K); lia]]].
    rewrite Forall_forall in C. apply (conform_sized 3 _ B _ (fun s u H => ltac:(destruct (HB s u H) as (x & y & z & -> & _); reflexivity)) (C q Iq)).
Qed.
Ltac list_in := cbn [fe_poly]; cbv [unit map Nat.eqb]; repeat first [left; reflexivity|right].
Lemma nedelec_prism_degrees n l : 1 <= n <= 2 -> nedelec_prism_poly n = Ok l ->
  degrees_right [0; 1; 2] CPrism (span l) (Z.of_nat n - 1) (Z.of_nat n) (Z.of_nat n - 1) (Z.of_nat n * 2).
Proof.
  intros Hn P'.
  assert (LM : forall m (P : mono -> Prop), (forall x y z, x + y <= m -> z <= m -> P [x; y; z]) -> forall u, lagrange_monomial CPrism m u -> P u).
  { intros m P H [|x [|y [|z [|]]]] (L & K1 & K2); try discriminate L. cbn in K1, K2. apply H; assumption. }
  destruct (Nat.eq_dec n 1) as [->|N1].
  - vm_compute in P'. injection P' as <-. apply (prism_degrees_of 1 _ [[(1%Z, [0; 1; 1])]; [((-1)%Z, [1; 0; 1])]; []]); [lia|vm_compute; reflexivity| |list_in|list_in|].
    + intros s u Hs. revert u. apply LM. intros x y z H1 H2. assert (x = 0 /\ y = 0 /\ z = 0) as (-> & -> & ->) by lia. destruct Hs as [<-|[<-|[<-|[]]]]; list_in.
    + exists 0, [0; 1; 1]. split; [reflexivity|]. split; [coef1|reflexivity].
  - assert (n = 2) as -> by lia. vm_compute in P'. injection P' as <-. apply (prism_degrees_of 2 _ [[(1%Z, [0; 2; 2])]; [((-1)%Z, [1; 1; 2])]; []]); [lia|vm_compute; reflexivity| |list_in|list_in|].
    + intros s u Hs. revert u. apply LM. intros x y z H1 H2. cbn in H1, H2.
      assert (Hxy : (x = 0 /\ y = 0) \/ (x = 1 /\ y = 0) \/ (x = 0 /\ y = 1)) by lia. assert (Hz : z = 0 \/ z = 1) by lia.
      destruct Hs as [<-|[<-|[<-|[]]]]; destruct Hxy as [(-> & ->)|[(-> & ->)|(-> & ->)]]; destruct Hz as [-> | ->]; list_in.
    + exists 0, [0; 2; 2]. split; [reflexivity|]. split; [coef1|reflexivity].
Qed.
Lemma nedelec_prism_deg k c n v e : 1 <= n <= 2 -> In c (references NedelecPrism) -> construct k NedelecPrism (default c) n v = Ok e -> ok_degrees NedelecPrism c n e.
Proof. intros Hn Hc E. start k Hc E; apply (nedelec_prism_degrees n); assumption. Qed.
