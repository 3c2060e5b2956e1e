(** Restrictions of the fields of the H(curl) serendipity space on the cube to edges and faces. *)
From Coquelicot Require Import Coquelicot.
From Coq Require Import String Arith Bool ZArith Reals Lia Lra List FunctionalExtensionality.
From Verif Require Import Base PolyLib PolySetsModel PolySetsProofs PolyVec QuadratureModel ReferencesModel ReferencesSpec CiarletModel CiarletProofs
  LinAlg ElementModel LagrangeModel UnisolvenceProofs LagrangeKey LagrangeUnisolvence
  LegendreIntSpec MomentsInt MomentsParts MomentsRT MomentsBox
  PointsModel PointsSpec PointsProofs PointsElements MomentElementsModel MomentElementsSpec MomentElementsProofs MomentsRaviart QFieldSpec QFieldGeometry QFieldProofs QFieldDual
  SerendipitySpec SerendipityKernel SerendipityGeometry SerendipityFieldSpec SerendipityFieldKernel SerendipityFieldSpaces SerendipityCurlSpec SerendipityCurlKernel.
Import PolyVec ListNotations.
Local Open Scope R_scope.

(** * The space *)
Lemma is_partial_lin i a (f g : sfun) v x y : is_partial i f v x -> is_partial i g v y -> is_partial i (fun w => a * f w + g w) v (a * x + y).
Proof.
  unfold is_partial. intros H1 H2. apply (derivable_pt_lim_plus (fun t => a * f (upd v i t)) (fun t => g (upd v i t))); [|exact H2]. apply (derivable_pt_lim_scal (fun t => f (upd v i t)) a), H1.
Qed.
Lemma scurl3_subspace n : subspace (scurl_space3 n).
Proof.
  split; [|split].
  - exists (fun _ _ => 0), (fun _ => 0), (fun _ => 0), (fun _ => 0), (fun _ => 0), (fun _ _ => 0). split; [intros; apply poly_space_zero|]. split; [apply poly_space_zero|]. split; [apply poly_space_zero|]. split; [apply poly_space_zero|]. split; [apply poly_space_zero|].
    split; [intros i v Hi; exact (derivable_pt_lim_const 0 (v i))|]. repeat split; intros; ring.
  - intros a u w (p & h1 & h2 & h3 & s & g & Hp & H1 & H2 & H3 & Hs & Hg & E0 & E1 & E2 & EB) (p' & h1' & h2' & h3' & s' & g' & Hp' & H1' & H2' & H3' & Hs' & Hg' & E0' & E1' & E2' & EB').
    exists (fun c v => a * p c v + p' c v), (fun v => a * h1 v + h1' v), (fun v => a * h2 v + h2' v), (fun v => a * h3 v + h3' v), (fun v => a * s v + s' v), (fun i v => a * g i v + g' i v).
    split; [intros c Hc; apply (poly_space_add _ (fun v => a * p c v) (p' c)); [apply poly_space_scale, Hp, Hc|apply Hp', Hc]|]. split; [apply without_lin; assumption|]. split; [apply without_lin; assumption|]. split; [apply without_lin; assumption|].
    split; [apply (poly_space_add _ (fun v => a * s v) s'); [apply poly_space_scale, Hs|exact Hs']|]. split; [intros i v Hi; apply is_partial_lin; auto|].
    split; [intros v; rewrite E0, E0'; ring|]. split; [intros v; rewrite E1, E1'; ring|]. split; [intros v; rewrite E2, E2'; ring|]. intros c v Hc. rewrite EB, EB' by exact Hc. ring.
  - intros u w E (p & h1 & h2 & h3 & s & g & Hp & H1 & H2 & H3 & Hs & Hg & E0 & E1 & E2 & EB). exists p, h1, h2, h3, s, g. split; [exact Hp|]. split; [exact H1|]. split; [exact H2|]. split; [exact H3|]. split; [exact Hs|]. split; [exact Hg|]. repeat split; intros; rewrite <- E; auto.
Qed.
Definition others (c : nat) : nat * nat := match c with O => (1, 2)%nat | S O => (0, 2)%nat | _ => (0, 1)%nat end.
Lemma others_triple c : (c < 3)%nat -> triple (fst (others c)) c (snd (others c)). Proof. intros Hc. unfold triple. destruct c as [|[|[|c]]]; cbn; lia. Qed.
(** the degree of component c in variable c is at most n *)
Lemma scurl3_box n f c : (c < 3)%nat -> scurl_space3 n f -> box 3 (fun i => if (i =? c)%nat then n else (n + 4)%nat) (fun v => f (c, v)).
Proof.
  intros Hc Hf. destruct (curl_to_parts n f Hf) as (P & H & S & HP & HE). pose proof (others_triple c Hc) as T. set (i := fst (others c)) in *. set (k := snd (others c)) in *. exists (curl_comp P H curl_sign S i c k). split; [|intros v; apply HE, T].
  set (ok := fun m => length m = 3%nat /\ forall a, (a < 3)%nat -> (nth a m 0 <= if (a =? c)%nat then n else (n + 4)%nat)%nat).
  apply (curl_comp_forall n P H S i c k ok T HP).
  - intros m L D. split; [exact L|]. intros a Ha. unfold triple in T. clearbody i k. assert (C : (a = i \/ a = c \/ a = k)%nat) by lia. destruct (Nat.eqb_spec a c); [subst; lia|]. destruct C as [->|[->| ->]]; lia.
  - intros m L _ A B D. split; [exact L|]. intros a Ha. unfold triple in T. clearbody i k. assert (C : (a = i \/ a = c \/ a = k)%nat) by lia. destruct (Nat.eqb_spec a c); [subst; lia|]. destruct C as [->|[->| ->]]; lia.
  - intros m L Q _. split; [exact L|]. assert (T' := T). unfold triple in T'. rewrite (triple_superlinear i c k _ T) in Q by (rewrite inc_length; exact L). clearbody i k.
    rewrite !nth_inc, Nat.eqb_refl, (proj2 (Nat.eqb_neq i c)), (proj2 (Nat.eqb_neq k c)) in Q by lia. rewrite !Nat.add_0_r in Q.
    pose proof (sl_cases (nth i m 0%nat)). pose proof (sl_cases (nth k m 0%nat)). pose proof (sl_cases (nth c m 0 + 1)%nat). intros a Ha. assert (C : (a = i \/ a = c \/ a = k)%nat) by lia. destruct (Nat.eqb_spec a c); [subst; lia|]. destruct C as [->|[->| ->]]; lia.
Qed.
Lemma scurl3_poly_field n f : scurl_space3 n f -> poly_field 3 f.
Proof.
  intros Hf. exists (3 * (n + 4))%nat. intros c Hc. apply (box_degree 3 (fun i => if (i =? c)%nat then n else (n + 4)%nat) (n + 4)); [|apply scurl3_box; assumption]. intros i Hi. destruct (i =? c)%nat; lia.
Qed.
Lemma scurl3_edge n f dom c o : aligned 3 1 dom [c] o -> (c < 3)%nat -> scurl_space3 n f -> degree_space 1 n (fun t => f (c, point_of dom t)).
Proof.
  intros A Hc Hf. pose proof (box_comp 3 1 dom [c] o _ _ A (scurl3_box n f c Hc Hf)) as B. eapply poly_space_weaken; [|exact B]. intros m [L Q]. split; [exact L|]. specialize (Q 0%nat ltac:(lia)). cbn [nth] in Q. rewrite Nat.eqb_refl in Q.
  destruct m as [|a [|]]; try discriminate L. cbn [mdeg nth] in *. lia.
Qed.

(** * Faces *)
Lemma serendipity2_split n s : (1 <= n)%nat -> serendipity_space 2 (n + 1) s -> exists Q a b, Forall (fun t => length (snd t) = 2%nat /\ (mdeg (snd t) <= n + 1)%nat) Q /\ forall v, s v = reval (Q ++ [(a, [n + 1; 1]%nat); (b, [1; n + 1]%nat)]) v.
Proof.
  intros Hn. revert s. apply (poly_ind _ (fun s => exists Q a b, Forall (fun t => length (snd t) = 2%nat /\ (mdeg (snd t) <= n + 1)%nat) Q /\ forall v, s v = reval (Q ++ [(a, [n + 1; 1]%nat); (b, [1; n + 1]%nat)]) v)).
  - exists [], 0, 0. split; [constructor|]. intros v. cbn. ring.
  - intros c m g [L S] (Q & a & b & HQ & E). destruct m as [|x [|y [|]]]; try discriminate L. change (superlinear [x; y]) with (sl x + (sl y + 0))%nat in S. pose proof (sl_cases x). pose proof (sl_cases y).
    destruct (Nat.le_gt_cases (x + y) (n + 1)) as [D|D].
    + exists ((c, [x; y]) :: Q), a, b. split; [constructor; [cbn [snd length mdeg]; lia|exact HQ]|]. intros v. rewrite E. reflexivity.
    + assert (C : (x = 1 /\ y = n + 1 \/ x = n + 1 /\ y = 1)%nat) by lia. destruct C as [[-> ->]|[-> ->]].
      * exists Q, a, (b + c). split; [exact HQ|]. intros v. rewrite E, !reval_app. cbn [reval fold_right fst snd]. ring.
      * exists Q, (a + c), b. split; [exact HQ|]. intros v. rewrite E, !reval_app. cbn [reval fold_right fst snd]. ring.
  - intros f g E (Q & a & b & HQ & E'). exists Q, a, b. split; [exact HQ|]. intros v. rewrite <- E. apply E'.
Qed.
Lemma grad_rigid2 n a b : (1 <= n)%nat -> (forall k v, (k < 2)%nat -> v (1 - k)%nat = 0 -> pair_fn (fun v => (a * INR (n + 1)) * v 0%nat ^ n + b * v 1%nat ^ n) (fun v => a * v 0%nat ^ n + (b * INR (n + 1)) * v 1%nat ^ n) k v = 0) -> a = 0 /\ b = 0.
Proof.
  intros Hn H. pose proof (INR_pos n) as P. pose proof (H 1%nat (fun i => match i with O => 0 | _ => 1 end) ltac:(lia) eq_refl) as H0. pose proof (H 0%nat (fun i => match i with O => 1 | _ => 0 end) ltac:(lia) eq_refl) as H1.
  cbn [pair_fn] in H0, H1. rewrite pow1, pow_i in H0, H1 by lia. split; nra.
Qed.
Lemma rdiff_app i p q : rdiff i (p ++ q) = rdiff i p ++ rdiff i q. Proof. unfold rdiff. rewrite filter_app, map_app. reflexivity. Qed.
Lemma aligned_placed dom dirs o : aligned 3 2 dom dirs o -> placed 3 2 dom dirs o. Proof. intros (_ & H). exact H. Qed.
Lemma face_partial dom dirs o n s g l t : aligned 3 2 dom dirs o -> (l < 2)%nat -> serendipity_space 3 n s -> is_partial (nth l dirs 0%nat) s (point_of dom t) g -> is_partial l (fun t => s (point_of dom t)) t g.
Proof.
  intros A Hl Hs HG. pose proof (aligned_placed dom dirs o A) as B. unfold is_partial in *. rewrite (placed_moving 3 2 dom dirs o t l B Hl) in HG. eapply derivable_pt_lim_ext; [|exact HG]. intros x. cbv beta.
  assert (D : degree_space 3 (n + 3) s) by (eapply poly_space_weaken; [|exact Hs]; intros m [L S]; split; [exact L|]; pose proof (superlinear_entry m); lia).
  apply (degree_local 3 (n + 3) s _ _ D). intros j Hj. rewrite (placed_point 3 2 dom dirs o (upd t l x) j B Hj). destruct (Nat.eq_dec j (nth l dirs 0%nat)) as [->|Hne].
  - rewrite upd_same. pose proof (placed_moving 3 2 dom dirs o (upd t l x) l B Hl) as Q. rewrite upd_same in Q. rewrite <- Q at 1. apply (placed_point 3 2 dom dirs o (upd t l x) _ B Hj).
  - rewrite upd_other by congruence. rewrite (placed_point 3 2 dom dirs o t j B Hj). f_equal. apply sum_ext. intros b Hb. destruct (Nat.eq_dec b l) as [->|Hb']; [|rewrite upd_other by congruence; reflexivity]. unfold ind. rewrite (proj2 (Nat.eqb_neq _ _) Hne). ring.
Qed.
(** the tangential components on a face, as a field on the square *)
Lemma face_split n f dom dirs o x : (1 <= n)%nat -> aligned 3 2 dom dirs o -> dirs = facet_dirs 3 x -> (x < 3)%nat -> scurl_space3 n f -> split_field 2 n (fun c => (1 - c)%nat) (fun y => f (nth (fst y) dirs 0%nat, point_of dom (snd y))).
Proof.
  intros Hn A Ed Hx Hf. destruct (curl_to_parts n f Hf) as (P & H & S & HP & HE). pose proof (aligned_placed dom dirs o A) as B. assert (La : length (r_axes dom) = 2%nat) by apply A.
  assert (SS : serendipity_space 3 (n + 1) (reval S)) by (exists S; split; [apply HP|reflexivity]).
  destruct (serendipity2_split n _ Hn (restrict_space 3 2 dom dirs o (n + 1) (reval S) B SS)) as (Q & a & b & HQ & EQ).
  assert (G : forall l t, (l < 2)%nat -> reval (rdiff (nth l dirs 0%nat) S) (point_of dom t) = reval (rdiff l (Q ++ [(a, [n + 1; 1]%nat); (b, [1; n + 1]%nat)])) t).
  { intros l t Hl. apply (is_partial_unique l (fun t => reval S (point_of dom t)) t).
    - apply (face_partial dom dirs o (n + 1) (reval S) _ l t A Hl SS), reval_partial.
    - pose proof (reval_partial l (Q ++ [(a, [n + 1; 1]%nat); (b, [1; n + 1]%nat)]) t) as R. unfold is_partial in *. eapply derivable_pt_lim_ext; [|exact R]. intros y. symmetry. apply EQ. }
  assert (T : forall l, (l < 2)%nat -> triple (nth (1 - l) dirs 0%nat) (nth l dirs 0%nat) x).
  { intros l Hl. unfold triple. rewrite Ed. destruct x as [|[|[|x]]]; try lia; (destruct l as [|[|l]]; try lia); cbn; lia. }
  set (W := fun l t => reval (P (nth l dirs 0%nat)) (point_of dom t) + (t (1 - l)%nat * o x * (curl_sign (nth l dirs 0%nat) (nth (1 - l) dirs 0%nat) * reval (H (nth (1 - l) dirs 0%nat)) (point_of dom t) + curl_sign (nth l dirs 0%nat) x * reval (H x) (point_of dom t)) + reval (rdiff l Q) t)).
  exists W, (pair_fn (fun v => (a * INR (n + 1)) * v 0%nat ^ n + b * v 1%nat ^ n) (fun v => a * v 0%nat ^ n + (b * INR (n + 1)) * v 1%nat ^ n)).
  destruct HP as (HP & HH & HS). assert (CP := conj HP (conj HH HS) : curl_parts n P H S).
  split; [|split; [intros c Hc; apply pair_H, Hc|split]].
  - intros l Hl. pose proof (T l Hl) as (Tj & Tc & _). unfold W.
    assert (DH : forall i, (i < 3)%nat -> degree_space 2 (n - 1) (fun t => reval (H i) (point_of dom t))).
    { intros i Hi. apply (pulled_back dom 3 2 (n - 1) (reval (H i)) La). exists (H i). split; [|reflexivity]. eapply Forall_impl; [|apply (HH i Hi)]. intros [uc um] (L & D & _). cbn [snd] in *. split; [exact L|]. rewrite D. apply le_n. }
    apply (poly_space_add _ (fun t => reval (P (nth l dirs 0%nat)) (point_of dom t))); [apply (pulled_back dom 3 2 n (reval (P (nth l dirs 0%nat))) La); exists (P (nth l dirs 0%nat)); split; [apply HP, Tc|reflexivity]|].
    apply (poly_space_add _ (fun t => t (1 - l)%nat * o x * (curl_sign (nth l dirs 0%nat) (nth (1 - l) dirs 0%nat) * reval (H (nth (1 - l) dirs 0%nat)) (point_of dom t) + curl_sign (nth l dirs 0%nat) x * reval (H x) (point_of dom t))) (fun t => reval (rdiff l Q) t)).
    + apply (degree_weaken 2 (1 + (n - 1))); [lia|].
      apply (poly_space_ext _ (fun t => t (1 - l)%nat * (o x * (curl_sign (nth l dirs 0%nat) (nth (1 - l) dirs 0%nat) * reval (H (nth (1 - l) dirs 0%nat)) (point_of dom t) + curl_sign (nth l dirs 0%nat) x * reval (H x) (point_of dom t))))); [intros t; ring|].
      apply (degree_mul 2 1 (n - 1) (fun t => t (1 - l)%nat)); [apply degree_var; lia|].
      apply (poly_space_scale _ (o x)). apply (poly_space_add _ (fun t => curl_sign (nth l dirs 0%nat) (nth (1 - l) dirs 0%nat) * reval (H (nth (1 - l) dirs 0%nat)) (point_of dom t)) (fun t => curl_sign (nth l dirs 0%nat) x * reval (H x) (point_of dom t))).
      * apply (poly_space_scale _ (curl_sign (nth l dirs 0%nat) (nth (1 - l) dirs 0%nat)) (fun t => reval (H (nth (1 - l) dirs 0%nat)) (point_of dom t))). apply DH. exact Tj.
      * apply (poly_space_scale _ (curl_sign (nth l dirs 0%nat) x) (fun t => reval (H x) (point_of dom t))). apply DH. exact Hx.
    + exists (rdiff l Q). split; [|reflexivity]. apply (Forall_rdiff (fun m => length m = 2%nat /\ (mdeg m <= n + 1)%nat) (fun m => length m = 2%nat /\ (mdeg m <= n)%nat) l Q HQ). intros m [L D] M1. rewrite dec_length. split; [exact L|].
      destruct m as [|y [|z [|]]]; try discriminate L. destruct l as [|[|l]]; [| |lia]; cbn [dec_at mdeg nth] in *; lia.
  - intros l t Hl. cbn [fst snd]. pose proof (T l Hl) as Tl. rewrite (HE _ _ _ _ Tl), (curl_comp_value n P H S _ _ _ _ Tl CP), (G l t Hl), rdiff_app, reval_app. unfold W.
    rewrite (placed_moving 3 2 dom dirs o t (1 - l) B) by lia. rewrite (placed_fixed 3 2 dom dirs o t x B Hx) by (rewrite Ed; destruct x as [|[|[|x]]]; try lia; cbn; lia).
    assert (Z : reval (rdiff l [(a, [n + 1; 1]%nat); (b, [1; n + 1]%nat)]) t = t (1 - l)%nat * pair_fn (fun v => (a * INR (n + 1)) * v 0%nat ^ n + b * v 1%nat ^ n) (fun v => a * v 0%nat ^ n + (b * INR (n + 1)) * v 1%nat ^ n) l t); [|rewrite Z; ring].
    destruct l as [|[|l]]; [| |lia]; unfold rdiff; cbn [filter snd fst nth]; rewrite !(proj2 (Nat.leb_le 1 _)) by lia; cbn [map fst snd dec_at nth reval fold_right pair_fn Nat.sub]; unfold meval; cbn [meval_from pow]; replace (n + 1 - 1)%nat with n by lia; rewrite pow_add; cbn [INR pow]; ring.
  - intros R c v Hc. destruct (grad_rigid2 n a b Hn R) as [-> ->]. destruct c; cbn [pair_fn]; ring.
Qed.
