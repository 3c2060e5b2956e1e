(** Proofs about membership tests, limits, volumes, tangents and normals. *)
From Coquelicot Require Import Coquelicot.
From Coq Require Import String Reals Arith Bool Lia Lra List.
From Verif Require Import Base ReferencesModel ReferencesSpec ReferencesProofs.
Import ListNotations.
Open Scope R_scope.

Lemma rle_iff a b : rle a b = true <-> a <= b.
Proof. unfold rle. destruct (Rle_dec a b); split; intros; try assumption; try reflexivity; try discriminate; contradiction. Qed.
Lemma rle_false a b : rle a b = false <-> b < a.
Proof. unfold rle. destruct (Rle_dec a b); split; intros; try discriminate; try lra; reflexivity. Qed.

(** Decide all comparisons of a goal [exists b, ... = Ok b /\ (b = true <-> Q)]. *)
Ltac by_cases :=
  repeat match goal with |- context [rle ?a ?b] =>
    let E := fresh "E" in destruct (rle a b) eqn:E;
    [apply rle_iff in E | apply rle_false in E]; cbn [and_then rmap andb] end.

Ltac hull_weights :=
  let w := fresh "w" in let Hl := fresh "Hl" in let Hs := fresh "Hs" in let H := fresh "Hc" in let Hp := fresh "Hp" in
  intros (w & (Hl & Hs & H) & Hp);
  repeat (destruct w as [|? w]; try discriminate Hl); clear Hl;
  try (pose proof (H 0%nat ltac:(simpl; lia)));
  try (pose proof (H 1%nat ltac:(simpl; lia)));
  try (pose proof (H 2%nat ltac:(simpl; lia)));
  clear H; unfold sumR in *; cbn [reference_vertices combine map fold_right fst snd nth] in *;
  repeat match goal with H : Forall _ (_ :: _) |- _ => inversion_clear H end.

Ltac give_weights ws :=
  exists ws; split;
  [ split; [reflexivity|]; split;
    [ unfold sumR; cbn [fold_right]; try (ring || field; lra)
    | intros [|[|[|?]]] ?; try (exfalso; simpl in *; lia);
      unfold sumR; cbn [reference_vertices combine map fold_right fst snd nth]; try (ring || field; lra) ]
  | repeat match goal with |- Forall _ (_ :: _) => apply Forall_cons | |- Forall _ [] => apply Forall_nil end;
    try (repeat apply Rmult_le_pos; lra) ].

Definition decides (r : res bool) (Q : Prop) : Prop := exists b, r = Ok b /\ (b = true <-> Q).

Lemma decides_intro b (Q : Prop) : (b = true -> Q) -> (b = false -> ~ Q) -> decides (Ok b) Q.
Proof.
  intros H1 H2. exists b. split; [reflexivity|]. split; [exact H1|].
  intros HQ. destruct b; [reflexivity|]. contradiction (H2 eq_refl HQ).
Qed.

Lemma contains_default c p : match c with CDualPolygon _ => False | _ => True end ->
  length p = tdim c -> decides (contains (default c) p) (in_hull (reference_vertices c) p).
Proof.
  intros Hc Hp. unfold contains. rewrite is_default_default.
  destruct c; try contradiction; cbn [default make_reference reference_vertices r_type r_vertices];
  cbn [tdim] in Hp;
  repeat (destruct p as [|? p]; try discriminate Hp); unfold cmp, get, rsum; cbn [nth_error rmap fold_left nth].
  - destruct (in_dec _ _ _) as [_|N].
    + apply decides_intro; [|discriminate]. intros _. exists [1]. split; [|repeat constructor; lra].
      split; [reflexivity|]. split; [unfold sumR; simpl; ring|]. intros j Hj. simpl in Hj. lia.
    + contradiction N. left. reflexivity.
  - by_cases; apply decides_intro; try discriminate; intros _; try (hull_weights; lra).
    give_weights [1 - r; r].
  - by_cases; apply decides_intro; try discriminate; intros _; try (hull_weights; lra).
    give_weights [1 - r - r0; r; r0].
  - by_cases; apply decides_intro; try discriminate; intros _; try (hull_weights; lra).
    give_weights [1 - r - r0 - r1; r; r0; r1].
  - by_cases; apply decides_intro; try discriminate; intros _; try (hull_weights; lra).
    give_weights [(1 - r) * (1 - r0); r * (1 - r0); (1 - r) * r0; r * r0].
  - by_cases; apply decides_intro; try discriminate; intros _; try (hull_weights; lra).
    give_weights [(1 - r) * (1 - r0) * (1 - r1); r * (1 - r0) * (1 - r1); (1 - r) * r0 * (1 - r1);
                  r * r0 * (1 - r1); (1 - r) * (1 - r0) * r1; r * (1 - r0) * r1; (1 - r) * r0 * r1;
                  r * r0 * r1].
  - by_cases; apply decides_intro; try discriminate; intros _; try (hull_weights; lra).
    give_weights [(1 - r - r0) * (1 - r1); r * (1 - r1); r0 * (1 - r1); (1 - r - r0) * r1; r * r1; r0 * r1].
  - by_cases; apply decides_intro; try discriminate; intros _; try (hull_weights; lra).
    destruct (Rlt_dec r1 1) as [L|L].
    + give_weights [(1 - r1 - r) * (1 - r1 - r0) * / (1 - r1); r * (1 - r1 - r0) * / (1 - r1);
                    (1 - r1 - r) * r0 * / (1 - r1); r * r0 * / (1 - r1); r1].
      all: try (repeat apply Rmult_le_pos; try lra; left; apply Rinv_0_lt_compat; lra).
    + apply Rnot_lt_le in L. assert (r1 = 1) by lra. assert (r = 0) by lra. assert (r0 = 0) by lra. subst.
      give_weights [0; 0; 0; 0; 1].
Qed.

Lemma contains_default_hull c p : match c with CDualPolygon _ => False | _ => True end ->
  length p = tdim c -> (contains (default c) p = Ok true <-> in_hull (reference_vertices c) p).
Proof.
  intros Hc Hp. destruct (contains_default c p Hc Hp) as [b [E H]]. rewrite E, <- H.
  split; [intros Hb; injection Hb as Hb; exact Hb|intros ->; reflexivity].
Qed.

Lemma contains_triangle vs p r : points 3 2 vs -> edge_det2 vs 1 2 <> 0 -> length p = 2%nat ->
  make_reference CTriangle vs = Ok r -> decides (contains r p) (in_hull vs p).
Proof.
  intros Hv Hd Hp Hr.
  destruct (pts_eq_dec vs (reference_vertices CTriangle)) as [E|N].
  { subst vs. change r with (match Ok r with Ok x => x | Err _ => r end). rewrite <- Hr.
    apply (contains_default CTriangle p I Hp). }
  revert p Hp. split_points Hv. intros p Hp. injection Hr as <-. unfold edge_det2, co in Hd. cbn [nth] in Hd.
  destruct p as [|x [|y [|]]]; try discriminate Hp.
  unfold contains, is_default. cbn [r_type r_vertices r_origin r_axes gdim].
  destruct (pts_eq_dec _ _) as [E|_]; [contradiction|].
  unfold gdim. cbn [r_origin length Nat.eqb]. unfold vsub. cbn [combine map fst snd nth first2 rbind].
  rewrite Rdec_false by (intros E; apply Hd; rewrite <- E; ring).
  match goal with |- decides (Ok (rle 0 (?A / ?D) && rle 0 (?B / ?D) && _)) _ =>
    set (s := A / D); set (u := B / D);
    assert (Es : s * D = A) by (unfold s; field; intros E; apply Hd; rewrite <- E; ring);
    assert (Eu : u * D = B) by (unfold u; field; intros E; apply Hd; rewrite <- E; ring)
  end.
  clearbody s u.
  match type of N with [[?x0; ?y0]; [?x1; ?y1]; [?x2; ?y2]] <> _ =>
    assert (Ex : x = x0 + s * (x1 - x0) + u * (x2 - x0)) by
     (apply (Rmult_eq_reg_r ((x1 - x0) * (y2 - y0) - (y1 - y0) * (x2 - x0))); [|exact Hd];
      match type of Es with s * ?D = _ =>
        replace ((x0 + s * (x1 - x0) + u * (x2 - x0)) * ((x1 - x0) * (y2 - y0) - (y1 - y0) * (x2 - x0)))
        with (x0 * D + (s * D) * (x1 - x0) + (u * D) * (x2 - x0)) by ring end;
      rewrite Es, Eu; ring);
    assert (Ey : y = y0 + s * (y1 - y0) + u * (y2 - y0)) by
     (apply (Rmult_eq_reg_r ((x1 - x0) * (y2 - y0) - (y1 - y0) * (x2 - x0))); [|exact Hd];
      match type of Es with s * ?D = _ =>
        replace ((y0 + s * (y1 - y0) + u * (y2 - y0)) * ((x1 - x0) * (y2 - y0) - (y1 - y0) * (x2 - x0)))
        with (y0 * D + (s * D) * (y1 - y0) + (u * D) * (y2 - y0)) by ring end;
      rewrite Es, Eu; ring)
  end.
  assert (U : forall w0 w1 w2 : R, w0 + (w1 + (w2 + 0)) = 1 ->
     x = w0 * r4 + (w1 * r2 + (w2 * r0 + 0)) -> y = w0 * r5 + (w1 * r3 + (w2 * r1 + 0)) -> s = w1 /\ u = w2).
  { clear -Ex Ey Hd. intros w0 w1 w2 Hw Hx Hy. replace w0 with (1 - w1 - w2) in * by lra.
    assert (A : (s - w1) * (r2 - r4) + (u - w2) * (r0 - r4) = 0) by lra.
    assert (B : (s - w1) * (r3 - r5) + (u - w2) * (r1 - r5) = 0) by lra.
    split.
    - assert (Z : (s - w1) * ((r2 - r4) * (r1 - r5) - (r3 - r5) * (r0 - r4)) = 0).
      { replace ((s - w1) * ((r2 - r4) * (r1 - r5) - (r3 - r5) * (r0 - r4))) with
          (((s - w1) * (r2 - r4) + (u - w2) * (r0 - r4)) * (r1 - r5)
           - ((s - w1) * (r3 - r5) + (u - w2) * (r1 - r5)) * (r0 - r4)) by ring. rewrite A, B. ring. }
      apply Rmult_integral in Z. destruct Z as [Z|Z]; [lra|contradiction].
    - assert (Z : (u - w2) * ((r2 - r4) * (r1 - r5) - (r3 - r5) * (r0 - r4)) = 0).
      { replace ((u - w2) * ((r2 - r4) * (r1 - r5) - (r3 - r5) * (r0 - r4))) with
          (((s - w1) * (r3 - r5) + (u - w2) * (r1 - r5)) * (r2 - r4)
           - ((s - w1) * (r2 - r4) + (u - w2) * (r0 - r4)) * (r3 - r5)) by ring. rewrite A, B. ring. }
      apply Rmult_integral in Z. destruct Z as [Z|Z]; [lra|contradiction]. }
  clear Es Eu.
  by_cases; apply decides_intro; try discriminate; intros _.
  1: { exists [1 - s - u; s; u]. split.
       - split; [reflexivity|]. split; [unfold sumR; simpl; ring|].
         intros [|[|j]] Hj; [| |simpl in Hj; lia]; unfold sumR; cbn [combine map fold_right fst snd nth]; lra.
       - repeat (apply Forall_cons; [lra|]). apply Forall_nil. }
  all: intros (w & (Hl & Hs & Hc) & Hw); destruct w as [|w0 [|w1 [|w2 [|]]]]; try discriminate Hl;
    pose proof (Hc 0%nat ltac:(simpl; lia)) as C0; pose proof (Hc 1%nat ltac:(simpl; lia)) as C1;
    unfold sumR in *; cbn [combine map fold_right fst snd nth] in *;
    destruct (U w0 w1 w2 Hs C0 C1) as [-> ->];
    repeat match goal with H : Forall _ (_ :: _) |- _ => inversion_clear H end; lra.
Qed.

(** ** on_edge *)
Lemma sqrt_zero_iff a : 0 <= a -> (sqrt a = 0 <-> a = 0).
Proof. intros Ha. split; [apply sqrt_eq_0; exact Ha|intros ->; exact sqrt_0]. Qed.

Lemma sq3_nonneg a b c : 0 <= 0 + a ^ 2 + b ^ 2 + c ^ 2.
Proof. pose proof (pow2_ge_0 a). pose proof (pow2_ge_0 b). pose proof (pow2_ge_0 c). lra. Qed.
Lemma sq3_zero a b c : 0 + a ^ 2 + b ^ 2 + c ^ 2 = 0 -> a = 0 /\ b = 0 /\ c = 0.
Proof.
  intros H. pose proof (pow2_ge_0 a). pose proof (pow2_ge_0 b). pose proof (pow2_ge_0 c).
  split; [|split]; nra.
Qed.

Lemma affine_comb_pair v0 v1 p s :
  (forall j, (j < length p)%nat -> nth j p 0 = nth j v0 0 + (nth j v1 0 - nth j v0 0) * s) ->
  affine_comb [1 - s; s] [v0; v1] p.
Proof.
  intros H. split; [reflexivity|]. split; [unfold sumR; simpl; ring|]. intros j Hj. rewrite (H j Hj).
  unfold sumR. cbn [combine map fold_right fst snd]. ring.
Qed.

Lemma edge_test_line vs i j p d : (d = 2 \/ d = 3)%nat ->
  Forall (fun v => length v = d) vs -> (i < length vs)%nat -> (j < length vs)%nat -> length p = d ->
  nth i vs [] <> nth j vs [] ->
  decides (edge_test vs [i; j] p) (in_affine_hull [nth i vs []; nth j vs []] p).
Proof.
  intros Hd Hf Hi Hj Hp Hne. unfold edge_test, get.
  change pt with (list R). rewrite (nth_error_nth' vs [] Hi), (nth_error_nth' vs [] Hj).
  rewrite Forall_forall in Hf.
  assert (Li := Hf _ (nth_In vs [] Hi)). assert (Lj := Hf _ (nth_In vs [] Hj)).
  set (v := nth i vs []) in *. set (w := nth j vs []) in *. clearbody v w. clear Hi Hj Hf.
  cbn [rbind]. unfold fsub. rewrite Li, Lj, Hp, Nat.eqb_refl. cbn [rbind].
  destruct Hd as [-> | ->].
  - destruct v as [|a0 [|a1 [|]]]; try discriminate Li. destruct w as [|b0 [|b1 [|]]]; try discriminate Lj.
    destruct p as [|x [|y [|]]]; try discriminate Hp.
    unfold vsub. cbn [combine map fst snd fcross rmap fabs].
    match goal with |- context [Req_EM_T (Rabs ?A) 0] => set (A0 := A); destruct (Req_EM_T (Rabs A0) 0) as [E|E] end;
      apply decides_intro; try discriminate; intros _.
    + assert (Z : A0 = 0) by (destruct (Req_EM_T A0 0) as [|N]; [assumption|apply Rabs_no_R0 in N; contradiction]).
      unfold A0 in Z.
      assert (G : exists s, x = a0 + (b0 - a0) * s /\ y = a1 + (b1 - a1) * s).
      { destruct (Req_EM_T b0 a0) as [E0|N0].
        - subst b0. assert (N1 : b1 <> a1) by (intros E1; apply Hne; subst; reflexivity).
          exists ((y - a1) / (b1 - a1)). split; [|field; lra].
          assert (Q : (x - a0) * (b1 - a1) = 0) by lra. apply Rmult_integral in Q. destruct Q; lra.
        - exists ((x - a0) / (b0 - a0)). split; [field; lra|].
          apply (Rmult_eq_reg_r (b0 - a0)); [|lra]. 
          replace ((a1 + (b1 - a1) * ((x - a0) / (b0 - a0))) * (b0 - a0)) with (a1 * (b0 - a0) + (b1 - a1) * (x - a0)) by (field; lra). lra. }
      destruct G as (s & G0 & G1). exists [1 - s; s]. apply affine_comb_pair.
      intros [|[|k]] Hk; [exact G0|exact G1|simpl in Hk; lia].
    + intros [ws Hw]. apply affine_comb_2 in Hw. destruct Hw as [s Hw].
      pose proof (Hw 0%nat ltac:(simpl; lia)) as G0. pose proof (Hw 1%nat ltac:(simpl; lia)) as G1.
      cbn [nth] in G0, G1. apply E. unfold A0. subst x y.
      replace ((a0 - (a0 + (b0 - a0) * s)) * (b1 - (a1 + (b1 - a1) * s)) -
               (a1 - (a1 + (b1 - a1) * s)) * (b0 - (a0 + (b0 - a0) * s))) with 0 by ring. apply Rabs_R0.
  - destruct v as [|a0 [|a1 [|a2 [|]]]]; try discriminate Li. destruct w as [|b0 [|b1 [|b2 [|]]]]; try discriminate Lj.
    destruct p as [|x [|y [|z [|]]]]; try discriminate Hp.
    unfold vsub. cbn [combine map fst snd fcross rmap fabs]. unfold fnorm. cbn [fold_left].
    match goal with |- context [sqrt (0 + ?A ^ 2 + ?B ^ 2 + ?C ^ 2)] => set (A0 := A); set (B0 := B); set (C0 := C) end.
    destruct (Req_EM_T (sqrt (0 + A0 ^ 2 + B0 ^ 2 + C0 ^ 2)) 0) as [E|E]; apply decides_intro; try discriminate; intros _.
    + apply (sqrt_eq_0 _ (sq3_nonneg A0 B0 C0)), sq3_zero in E. destruct E as (ZA & ZB & ZC).
      unfold A0, B0, C0 in *. clear A0 B0 C0.
      assert (G : exists s, x = a0 + (b0 - a0) * s /\ y = a1 + (b1 - a1) * s /\ z = a2 + (b2 - a2) * s).
      { assert (D : forall p a b q c d : R, b <> a -> (p - a) * (d - c) = (q - c) * (b - a) ->
                   q = c + (d - c) * ((p - a) / (b - a))).
        { intros. apply (Rmult_eq_reg_r (b - a)); [|lra].
          replace ((c + (d - c) * ((p - a) / (b - a))) * (b - a)) with (c * (b - a) + (p - a) * (d - c)) by (field; lra). lra. }
        destruct (Req_EM_T b0 a0) as [E0|N0].
        - subst b0. destruct (Req_EM_T b1 a1) as [E1|N1].
          + subst b1. assert (N2 : b2 <> a2) by (intros E2; apply Hne; subst; reflexivity).
            exists ((z - a2) / (b2 - a2)).
            assert (Q : (x - a0) * (b2 - a2) = 0) by lra. apply Rmult_integral in Q.
            assert (Q' : (y - a1) * (b2 - a2) = 0) by lra. apply Rmult_integral in Q'.
            split; [|split]; [destruct Q; lra|destruct Q'; lra|field; lra].
          + exists ((y - a1) / (b1 - a1)). split; [|split].
            * assert (Q : (x - a0) * (b1 - a1) = 0) by lra. apply Rmult_integral in Q. destruct Q; lra.
            * field; lra.
            * apply D; lra.
        - exists ((x - a0) / (b0 - a0)). split; [|split]; [field; lra|apply D; lra..]. }
      destruct G as (s & G0 & G1 & G2). exists [1 - s; s]. apply affine_comb_pair.
      intros [|[|[|k]]] Hk; [exact G0|exact G1|exact G2|simpl in Hk; lia].
    + intros [ws Hw]. apply affine_comb_2 in Hw. destruct Hw as [s Hw].
      pose proof (Hw 0%nat ltac:(simpl; lia)) as G0. pose proof (Hw 1%nat ltac:(simpl; lia)) as G1.
      pose proof (Hw 2%nat ltac:(simpl; lia)) as G2.
      cbn [nth] in G0, G1, G2. apply E. apply sqrt_zero_iff; [apply sq3_nonneg|].
      assert (ZA : A0 = 0) by (unfold A0; subst x y z; ring). assert (ZB : B0 = 0) by (unfold B0; subst x y z; ring).
      assert (ZC : C0 = 0) by (unfold C0; subst x y z; ring). rewrite ZA, ZB, ZC. ring.
Qed.

Lemma first_true_decides {A} (f : A -> res bool) (Q : A -> Prop) l :
  (forall a, In a l -> decides (f a) (Q a)) ->
  decides (first_true (map f l)) (exists a, In a l /\ Q a).
Proof.
  induction l as [|a l IH]; intros H; simpl.
  - apply decides_intro; [discriminate|]. intros _ [a [[] _]].
  - destruct (H a (or_introl eq_refl)) as [b [E Hb]]. rewrite E. destruct b.
    + apply decides_intro; [|discriminate]. intros _. exists a. split; [left; reflexivity|apply Hb; reflexivity].
    + destruct IH as [b' [E' Hb']]; [intros; apply H; right; assumption|]. rewrite E'. exists b'. split; [reflexivity|].
      rewrite Hb'. split.
      * intros [c [Hin Hc]]. exists c. split; [right; exact Hin|exact Hc].
      * intros [c [[<-|Hin] Hc]]; [apply Hb in Hc; discriminate|exists c; split; assumption].
Qed.

(** The edges of the cell join existing, distinct vertices. *)
Definition proper_edges (r : reference) : Prop :=
  forall e, In e (edges (r_type r)) -> exists i j, e = [i; j] /\
    (i < length (r_vertices r))%nat /\ (j < length (r_vertices r))%nat /\
    nth i (r_vertices r) [] <> nth j (r_vertices r) [].
Definition edge_points (r : reference) (e : list nat) : list pt := map (fun k => nth k (r_vertices r) []) e.

Lemma on_edge_line r p d : (d = 2 \/ d = 3)%nat ->
  Forall (fun v => length v = d) (r_vertices r) -> length p = d -> proper_edges r ->
  decides (on_edge r p) (exists e, In e (edges (r_type r)) /\ in_affine_hull (edge_points r e) p).
Proof.
  intros Hd Hf Hp He. unfold on_edge. apply first_true_decides. intros e Hin.
  destruct (He e Hin) as (i & j & -> & Hi & Hj & Hn). exact (edge_test_line _ i j p d Hd Hf Hi Hj Hp Hn).
Qed.

(** A point of the hull on which a maximising functional is attained has no weight elsewhere. *)
Lemma sumR_ext {A} (f g : A -> R) l : (forall a, In a l -> f a = g a) -> sumR (map f l) = sumR (map g l).
Proof.
  intros H. unfold sumR. induction l as [|a l IH]; simpl; [reflexivity|].
  rewrite H by (left; reflexivity). rewrite IH; [reflexivity|]. intros; apply H; right; assumption.
Qed.
Lemma sumR_app a b : sumR (a ++ b) = sumR a + sumR b.
Proof. unfold sumR. induction a; simpl; [ring|]. rewrite IHa. ring. Qed.
Lemma sumR_zero {A} (f : A -> R) l : (forall a, In a l -> f a = 0) -> sumR (map f l) = 0.
Proof.
  intros H. unfold sumR. induction l as [|a l IH]; simpl; [reflexivity|].
  rewrite H by (left; reflexivity). rewrite IH; [ring|]. intros; apply H; right; assumption.
Qed.
Lemma sumR_plus {A} (f g : A -> R) l : sumR (map (fun a => f a + g a) l) = sumR (map f l) + sumR (map g l).
Proof. unfold sumR. induction l as [|a l IH]; simpl; [ring|]. rewrite IH. ring. Qed.
Lemma sumR_scal {A} c (f : A -> R) l : sumR (map (fun a => c * f a) l) = c * sumR (map f l).
Proof. unfold sumR. induction l as [|a l IH]; simpl; [ring|]. rewrite IH. ring. Qed.
Lemma sumR_nonneg_zero {A} (f : A -> R) l : (forall a, In a l -> 0 <= f a) -> sumR (map f l) = 0 ->
  forall a, In a l -> f a = 0.
Proof.
  unfold sumR. induction l as [|b l IH]; intros Hn Hs a Hin; [contradiction|]. simpl in Hs.
  assert (P : 0 <= fold_right Rplus 0 (map f l)).
  { clear -Hn. induction l as [|c l IH]; simpl; [lra|].
    assert (0 <= f c) by (apply Hn; right; left; reflexivity).
    assert (0 <= fold_right Rplus 0 (map f l)); [|lra].
    apply IH. intros x [->|Hx]; apply Hn; [left; reflexivity|right; right; exact Hx]. }
  assert (B := Hn b (or_introl eq_refl)).
  destruct Hin as [<-|Hin]; [lra|]. apply IH; [|lra|exact Hin]. intros; apply Hn; right; assumption.
Qed.
Lemma combine_nth_map {A B} (w : list A) (vs : list B) dw dv : length w = length vs ->
  combine w vs = map (fun k => (nth k w dw, nth k vs dv)) (range (length vs)).
Proof.
  intros Hl. apply (nth_ext _ _ (dw, dv) (dw, dv)).
  - rewrite combine_length, map_length, length_range, Hl. lia.
  - intros k Hk. rewrite combine_length, Hl, Nat.min_id in Hk. rewrite combine_nth by exact Hl.
    rewrite (nth_indep _ (dw, dv) ((fun k => (nth k w dw, nth k vs dv)) 0%nat)) by (rewrite map_length, length_range; exact Hk).
    rewrite (map_nth (fun k => (nth k w dw, nth k vs dv))). unfold range. rewrite seq_nth by exact Hk. reflexivity.
Qed.
Lemma sum_pick (f : nat -> R) n i : (i < n)%nat -> (forall k, (k < n)%nat -> k <> i -> f k = 0) ->
  sumR (map f (range n)) = f i.
Proof.
  intros Hi Hz. unfold range. replace n with (i + S (n - i - 1))%nat by lia. rewrite seq_app, map_app, sumR_app.
  cbn [seq map]. replace (sumR (f (0 + i)%nat :: map f (seq (S (0 + i)) (n - i - 1)))) with
    (f i + sumR (map f (seq (S i) (n - i - 1)))) by reflexivity.
  rewrite (sumR_zero f (seq 0 i)), (sumR_zero f (seq (S i) _)); [ring| |].
  - intros k Hk. apply in_seq in Hk. apply Hz; lia.
  - intros k Hk. apply in_seq in Hk. apply Hz; lia.
Qed.
Lemma sum_pick2 (f : nat -> R) n i j : (i < n)%nat -> (j < n)%nat -> i <> j ->
  (forall k, (k < n)%nat -> k <> i -> k <> j -> f k = 0) ->
  sumR (map f (range n)) = f i + f j.
Proof.
  intros Hi Hj Hij Hz.
  rewrite (sumR_ext f (fun k => (if Nat.eq_dec k i then f i else 0) + (if Nat.eq_dec k i then 0 else f k))).
  2: { intros k _. destruct (Nat.eq_dec k i) as [->|]; ring. }
  rewrite (sumR_plus (fun k => if Nat.eq_dec k i then f i else 0) (fun k => if Nat.eq_dec k i then 0 else f k)).
  rewrite (sum_pick _ n i Hi), (sum_pick _ n j Hj).
  - destruct (Nat.eq_dec i i); [|contradiction]. destruct (Nat.eq_dec j i); [congruence|ring].
  - intros k Hk Hkj. destruct (Nat.eq_dec k i); [reflexivity|]. apply Hz; assumption.
  - intros k Hk Hki. destruct (Nat.eq_dec k i); [contradiction|reflexivity].
Qed.

Lemma dotR_nth l v : length l = length v ->
  dotR l v = sumR (map (fun j => nth j l 0 * nth j v 0) (range (length v))).
Proof.
  intros H. unfold dotR. rewrite (combine_nth_map l v 0 0 H), map_map. reflexivity.
Qed.
Lemma sumR_swap {A B} (f : A -> B -> R) la lb :
  sumR (map (fun a => sumR (map (fun b => f a b) lb)) la) = sumR (map (fun b => sumR (map (fun a => f a b) la)) lb).
Proof.
  induction la as [|a la IH].
  - simpl. symmetry. apply sumR_zero. intros. reflexivity.
  - cbn [map]. change (sumR (map (fun b => f a b) lb) + sumR (map (fun a0 => sumR (map (fun b => f a0 b) lb)) la)
       = sumR (map (fun b => sumR (map (fun a0 => f a0 b) (a :: la))) lb)).
    rewrite IH, <- sumR_plus. apply sumR_ext. intros b _. reflexivity.
Qed.

Lemma dotR_comb w vs p l d : Forall (fun v => length v = d) vs -> length p = d -> length l = d ->
  affine_comb w vs p ->
  dotR l p = sumR (map (fun k => nth k w 0 * dotR l (nth k vs [])) (range (length vs))).
Proof.
  intros Hf Hp Hl (Hw & _ & Hc). rewrite dotR_nth by lia. rewrite Forall_forall in Hf.
  rewrite (sumR_ext (fun k => nth k w 0 * dotR l (nth k vs []))
             (fun k => sumR (map (fun j => nth j l 0 * (nth k w 0 * nth j (nth k vs []) 0)) (range (length p))))).
  2: { intros k Hk. apply in_range in Hk. assert (Lk := Hf _ (nth_In vs [] Hk)). rewrite dotR_nth by lia.
       rewrite <- sumR_scal. rewrite Lk, Hp. apply sumR_ext. intros j _. ring. }
  rewrite (sumR_swap (fun k j => nth j l 0 * (nth k w 0 * nth j (nth k vs []) 0))).
  apply sumR_ext. intros j Hj. apply in_range in Hj. rewrite (Hc j Hj).
  rewrite (combine_nth_map w vs 0 [] Hw), map_map, sumR_scal. reflexivity.
Qed.

Lemma exposed_pair_segment vs d i j p : Forall (fun v => length v = d) vs -> length p = d ->
  (i < length vs)%nat -> (j < length vs)%nat -> i <> j -> exposed vs d [i; j] ->
  in_hull vs p -> in_affine_hull [nth i vs []; nth j vs []] p -> in_hull [nth i vs []; nth j vs []] p.
Proof.
  intros Hf Hp Hi Hj Hij (l & c & Hl & Hex) (w & Hw & Hpos) [u Hu].
  assert (Li : length (nth i vs []) = d) by (rewrite Forall_forall in Hf; apply Hf, nth_In; exact Hi).
  assert (Lj : length (nth j vs []) = d) by (rewrite Forall_forall in Hf; apply Hf, nth_In; exact Hj).
  assert (Dp : dotR l p = c).
  { rewrite (dotR_comb u [nth i vs []; nth j vs []] p l d); try assumption; [|repeat constructor; assumption].
    destruct Hu as (Hu & Hs & _). destruct u as [|u0 [|u1 [|]]]; try discriminate Hu.
    destruct (Hex i Hi) as [Ei _]. destruct (Hex j Hj) as [Ej _]. 
    unfold sumR in *. cbn [range seq length map fold_right nth] in *.
    rewrite (Ei (or_introl eq_refl)), (Ej (or_intror (or_introl eq_refl))).
    replace u0 with (1 - u1) by lra. ring. }
  assert (Dw := dotR_comb w vs p l d Hf Hp Hl Hw). destruct Hw as (Hwl & Hws & Hwc).
  assert (W1 : sumR (map (fun k => nth k w 0) (range (length vs))) = 1).
  { rewrite <- Hws. f_equal. apply (nth_ext _ _ 0 0); rewrite map_length, length_range; [lia|].
    intros k Hk. rewrite (nth_indep _ 0 ((fun k => nth k w 0) 0%nat)) by (rewrite map_length, length_range; exact Hk).
    rewrite (map_nth (fun k => nth k w 0)). unfold range. rewrite seq_nth by exact Hk. reflexivity. }
  assert (Wpos : forall k, (k < length vs)%nat -> 0 <= nth k w 0).
  { intros k Hk. rewrite Forall_forall in Hpos. apply Hpos, nth_In. lia. }
  assert (Z : sumR (map (fun k => nth k w 0 * (c - dotR l (nth k vs []))) (range (length vs))) = 0).
  { rewrite (sumR_ext _ (fun k => c * nth k w 0 + (-1) * (nth k w 0 * dotR l (nth k vs [])))) by (intros; ring).
    rewrite (sumR_plus (fun k => c * nth k w 0) (fun k => (-1) * (nth k w 0 * dotR l (nth k vs [])))).
    rewrite !sumR_scal, W1, <- Dw, Dp. ring. }
  assert (Wz : forall k, (k < length vs)%nat -> k <> i -> k <> j -> nth k w 0 = 0).
  { intros k Hk Nki Nkj. 
    destruct (Hex k Hk) as [_ Hlt].
    assert (Lt : dotR l (nth k vs []) < c) by (apply Hlt; intros [<-|[<-|[]]]; [apply Nki|apply Nkj]; reflexivity).
    assert (Q0 : nth k w 0 * (c - dotR l (nth k vs [])) = 0).
    { apply (sumR_nonneg_zero (fun k => nth k w 0 * (c - dotR l (nth k vs []))) (range (length vs))).
      - intros a Ha. apply in_range in Ha. apply Rmult_le_pos; [apply Wpos; exact Ha|].
        destruct (Hex a Ha) as [A1 A2]. destruct (in_dec Nat.eq_dec a [i; j]) as [I1|I1]; [rewrite (A1 I1); lra|].
        specialize (A2 I1). lra.
      - exact Z.
      - apply in_range. exact Hk. }
    apply Rmult_integral in Q0. destruct Q0; [assumption|lra]. }
  exists [nth i w 0; nth j w 0]. split.
  - split; [reflexivity|]. split.
    + unfold sumR. cbn [fold_right]. rewrite <- W1, (sum_pick2 _ (length vs) i j Hi Hj Hij); [ring|exact Wz].
    + intros k Hk. rewrite (Hwc k Hk). rewrite (combine_nth_map w vs 0 [] Hwl), map_map. cbn [fst snd].
      rewrite (sum_pick2 _ (length vs) i j Hi Hj Hij).
      * unfold sumR. cbn [combine map fold_right fst snd]. ring.
      * intros q Hq Nqi Nqj. rewrite Wz by assumption. ring.
  - repeat (apply Forall_cons; [apply Wpos; assumption|]). apply Forall_nil.
Qed.

(** The tabulated edges are edges of the convex hull of the vertices. *)
Definition convex_edges (r : reference) (d : nat) : Prop :=
  forall e, In e (edges (r_type r)) -> exists i j, e = [i; j] /\ i <> j /\
    (i < length (r_vertices r))%nat /\ (j < length (r_vertices r))%nat /\
    nth i (r_vertices r) [] <> nth j (r_vertices r) [] /\ exposed (r_vertices r) d [i; j].

Lemma in_hull_affine vs p : in_hull vs p -> in_affine_hull vs p.
Proof. intros (w & H & _). exists w. exact H. Qed.

Lemma on_edge_inside r p d : (d = 2 \/ d = 3)%nat ->
  Forall (fun v => length v = d) (r_vertices r) -> length p = d -> convex_edges r d ->
  in_hull (r_vertices r) p ->
  decides (on_edge r p) (exists e, In e (edges (r_type r)) /\ in_hull (edge_points r e) p).
Proof.
  intros Hd Hf Hp He Hin.
  assert (Pr : proper_edges r).
  { intros e Hine. destruct (He e Hine) as (i & j & E & _ & Hi & Hj & Hn & _). exists i, j. auto. }
  destruct (on_edge_line r p d Hd Hf Hp Pr) as [b [E Hb]]. exists b. split; [exact E|]. rewrite Hb.
  split; intros (e & Hine & H); exists e; (split; [exact Hine|]); [|apply in_hull_affine; exact H].
  destruct (He e Hine) as (i & j & -> & Nij & Hi & Hj & Hn & Hex).
  exact (exposed_pair_segment _ d i j p Hf Hp Hi Hj Nij Hex Hin H).
Qed.

(** ** Integration limits *)
Definition in_region (lims : list limit) (e : env) : Prop :=
  Forall (fun l => snd (fst l) e <= e (fst (fst l)) <= snd l e) lims.

Lemma limits_region c lims p : integration_limits c = Ok lims -> length p = tdim c ->
  (in_region lims (env_of p) <-> in_hull (reference_vertices c) p).
Proof.
  intros Hl Hp.
  assert (Hc : match c with CDualPolygon _ => False | _ => True end) by (destruct c; try exact I; discriminate Hl).
  rewrite <- (contains_default_hull c p Hc Hp).
  unfold contains. rewrite is_default_default. unfold in_region.
  destruct c; try discriminate Hl; injection Hl as <-; cbn [tdim] in Hp;
  repeat (destruct p as [|? p]; try discriminate Hp);
  cbn [default make_reference reference_vertices r_type]; unfold cmp, get, rsum; cbn [nth_error rmap fold_left nth];
  by_cases; (split; [intros H; try reflexivity; exfalso|intros H; try discriminate H]);
  repeat match goal with H : Forall _ (_ :: _) |- _ => inversion_clear H end;
  unfold env_of in *; cbn [fst snd nth] in *; try lra;
  repeat match goal with |- Forall _ (_ :: _) => apply Forall_cons | |- Forall _ [] => apply Forall_nil end;
  unfold env_of in *; cbn [fst snd nth] in *; lra.
Qed.

(** Integrating f over the limits (first entry innermost) gives g, a function of the variables that
    are not integrated. *)
Fixpoint iterated (lims : list limit) (f g : env -> R) : Prop :=
  match lims with
  | [] => forall e, f e = g e
  | (v, lo, hi) :: ls =>
      exists h : env -> R, (forall e, is_RInt (fun s => f (upd e v s)) (lo e) (hi e) (h e)) /\
                           iterated ls h g
  end.

Lemma is_RInt_ext_all (f g : R -> R) a b l : (forall x, f x = g x) -> is_RInt f a b l -> is_RInt g a b l.
Proof. intros H. apply is_RInt_ext. intros x _. apply H. Qed.

Lemma is_RInt_const1 a b : is_RInt (fun _ : R => 1) a b (b - a).
Proof.
  pose proof (is_RInt_const a b (1 : R)) as H. unfold scal in H; simpl in H; unfold mult in H; simpl in H.
  replace ((b - a) * 1) with (b - a) in H by ring. exact H.
Qed.

Lemma is_RInt_one a b l : l = b - a -> is_RInt (fun _ : R => 1) a b l.
Proof. intros ->. apply is_RInt_const1. Qed.

(** An antiderivative gives the integral. *)
Lemma is_RInt_antider (f F : R -> R) a b : (forall x, is_derive F x (f x)) -> (forall x, continuous f x) ->
  is_RInt f a b (F b - F a).
Proof. intros HD HC. apply (is_RInt_derive F f); intros; [apply HD|apply HC]. Qed.

Definition default_volume (c : cell_type) : R :=
  match c with
  | CPoint => 0 | CInterval | CQuadrilateral | CHexahedron => 1 | CTriangle | CPrism => 1 / 2
  | CTetrahedron => 1 / 6 | CPyramid => 1 / 3 | CDualPolygon _ => 0
  end.

Lemma limits_volume c lims : integration_limits c = Ok lims ->
  iterated lims (fun _ => 1) (fun _ => default_volume c).
Proof.
  intros Hl. destruct c; try discriminate Hl; injection Hl as <-; unfold default_volume; cbn [iterated].
  - exists (fun _ => 1). split; [|reflexivity]. intros e. apply is_RInt_one; ring.
  - exists (fun e => 1 - e 0%nat). split.
    { intros e. apply is_RInt_one; ring. }
    exists (fun _ => 1 / 2). split; [|reflexivity]. intros e.
    replace (1 / 2) with ((fun x => x - x ^ 2 / 2) 1 - (fun x => x - x ^ 2 / 2) 0) by (simpl; field).
    apply (is_RInt_antider (fun s => 1 - upd e 0%nat s 0%nat) (fun x => x - x ^ 2 / 2)); unfold upd; cbn [Nat.eqb].
    + intros x. auto_derive; [exact I|field].
    + intros x. apply (ex_derive_continuous (fun s => 1 - s) x). auto_derive. exact I.
  - exists (fun e => 1 - e 1%nat - e 2%nat). split.
    { intros e. apply is_RInt_one; ring. }
    exists (fun e => (1 - e 2%nat) ^ 2 / 2). split.
    { intros e. set (z := e 2%nat).
      replace ((1 - z) ^ 2 / 2) with ((fun y => (1 - z) * y - y ^ 2 / 2) (1 - z) - (fun y => (1 - z) * y - y ^ 2 / 2) 0) by (simpl; field).
      apply (is_RInt_antider (fun s => 1 - upd e 1%nat s 1%nat - upd e 1%nat s 2%nat) (fun y => (1 - z) * y - y ^ 2 / 2)); unfold upd; cbn [Nat.eqb]; fold z.
      + intros x. auto_derive; [exact I|field].
      + intros x. apply (ex_derive_continuous (fun s => 1 - s - z) x). auto_derive. exact I. }
    exists (fun _ => 1 / 6). split; [|reflexivity]. intros e.
    replace (1 / 6) with ((fun z => - (1 - z) ^ 3 / 6) 1 - (fun z => - (1 - z) ^ 3 / 6) 0) by (simpl; field).
    apply (is_RInt_antider (fun s => (1 - upd e 2%nat s 2%nat) ^ 2 / 2) (fun z => - (1 - z) ^ 3 / 6)); unfold upd; cbn [Nat.eqb].
    + intros x. auto_derive; [exact I|field].
    + intros x. apply (ex_derive_continuous (fun s => (1 - s) ^ 2 / 2) x). auto_derive. exact I.
  - exists (fun _ => 1). split; [intros e; apply is_RInt_one; ring|].
    exists (fun _ => 1). split; [|reflexivity]. intros e; apply is_RInt_one; ring.
  - exists (fun _ => 1). split; [intros e; apply is_RInt_one; ring|].
    exists (fun _ => 1). split; [intros e; apply is_RInt_one; ring|].
    exists (fun _ => 1). split; [|reflexivity]. intros e; apply is_RInt_one; ring.
  - exists (fun _ => 1). split; [intros e; apply is_RInt_one; ring|].
    exists (fun e => 1 - e 0%nat). split.
    { intros e. apply is_RInt_one; ring. }
    exists (fun _ => 1 / 2). split; [|reflexivity]. intros e.
    replace (1 / 2) with ((fun x => x - x ^ 2 / 2) 1 - (fun x => x - x ^ 2 / 2) 0) by (simpl; field).
    apply (is_RInt_antider (fun s => 1 - upd e 0%nat s 0%nat) (fun x => x - x ^ 2 / 2)); unfold upd; cbn [Nat.eqb].
    + intros x. auto_derive; [exact I|field].
    + intros x. apply (ex_derive_continuous (fun s => 1 - s) x). auto_derive. exact I.
  - exists (fun e => 1 - e 2%nat). split.
    { intros e. apply is_RInt_one; ring. }
    exists (fun e => (1 - e 2%nat) ^ 2). split.
    { intros e. unfold upd. cbn [Nat.eqb]. set (z := e 2%nat).
      replace ((1 - z) ^ 2) with ((fun y => (1 - z) * y) (1 - z) - (fun y => (1 - z) * y) 0) by (simpl; ring).
      apply (is_RInt_antider (fun s => 1 - z) (fun y => (1 - z) * y)).
      + intros x. auto_derive; [exact I|ring].
      + intros x. apply continuous_const. }
    exists (fun _ => 1 / 3). split; [|reflexivity]. intros e.
    replace (1 / 3) with ((fun z => - (1 - z) ^ 3 / 3) 1 - (fun z => - (1 - z) ^ 3 / 3) 0) by (simpl; field).
    apply (is_RInt_antider (fun s => (1 - upd e 2%nat s 2%nat) ^ 2) (fun z => - (1 - z) ^ 3 / 3)); unfold upd; cbn [Nat.eqb].
    + intros x. auto_derive; [exact I|field].
    + intros x. apply (ex_derive_continuous (fun s => (1 - s) ^ 2) x). auto_derive. exact I.
Qed.

(** ** Volumes *)
Lemma volume_default c : match c with CDualPolygon _ => False | _ => True end ->
  volume (default c) = Ok (default_volume c).
Proof.
  intros Hc. destruct c; try contradiction; unfold volume, jacobian, default;
  cbn [make_reference reference_vertices r_type r_axes tdim length Nat.eqb];
  unfold vsub; cbn [combine map fst snd fcross rbind rmap fdot fabs length Nat.eqb fold_left default_volume]; unfold fnorm; cbn [fold_left];
  try reflexivity; f_equal;
  try (match goal with |- context [Rabs ?a] => replace a with 1 by ring; rewrite Rabs_R1; field end).
  replace (0 + (1 - 0) ^ 2) with 1 by ring. exact sqrt_1.
Qed.

(** |det| of the affine map, for cells of full dimension. *)
Definition map_det (c : cell_type) (vs : list pt) : R :=
  match c with
  | CInterval => co vs 1 0 - co vs 0 0
  | CTriangle | CQuadrilateral => edge_det2 vs 1 2
  | CTetrahedron | CPrism => edge_det3 vs 1 2 3
  | CHexahedron | CPyramid => edge_det3 vs 1 2 4
  | _ => 1
  end.

Lemma volume_scales c vs r : match c with CPoint | CDualPolygon _ => False | _ => True end ->
  points (nvert c) (tdim c) vs -> make_reference c vs = Ok r ->
  volume r = Ok (Rabs (map_det c vs) * default_volume c).
Proof.
  intros Hc Hp Hr. destruct c; try contradiction; unfold nvert, tdim in Hp; cbn [reference_vertices length] in Hp;
  split_points Hp; injection Hr as <-; unfold volume, jacobian;
  cbn [r_type r_axes tdim length Nat.eqb];
  unfold vsub; cbn [combine map fst snd fcross rbind rmap fdot fabs length Nat.eqb fold_left default_volume map_det];
  unfold edge_det2, edge_det3, co; cbn [nth]; try reflexivity; f_equal.
  - unfold fnorm. cbn [fold_left].
    match goal with |- sqrt (0 + ?a ^ 2) = _ => replace (0 + a ^ 2) with (Rsqr a) by (unfold Rsqr; ring); rewrite sqrt_Rsqr_abs; ring end.
  - match goal with |- _ * Rabs ?a = Rabs ?b * _ => replace a with b by ring end. field.
  - match goal with |- _ * Rabs ?a = Rabs ?b * _ => replace a with b by ring end. field.
  - match goal with |- Rabs ?a = Rabs ?b * _ => replace a with b by ring end. ring.
  - match goal with |- Rabs ?a = Rabs ?b * _ => replace a with b by ring end. ring.
  - match goal with |- _ * Rabs ?a = Rabs ?b * _ => replace a with b by ring end. field.
  - match goal with |- _ * Rabs ?a = Rabs ?b * _ => replace a with b by ring end. field.
Qed.

(** ** Tangents and normals *)
Lemma vdot_dotR v w : vdot v w = dotR v w.
Proof.
  revert w. induction v as [|a v IH]; intros [|b w]; try reflexivity.
  rewrite vdot_cons, IH. reflexivity.
Qed.
Lemma dotR_cons a b v w : dotR (a :: v) (b :: w) = a * b + dotR v w.
Proof. reflexivity. Qed.
Lemma dotR_scale_l k v w : dotR (map (fun i => i / k) v) w = dotR v w / k.
Proof.
  revert w. induction v as [|a v IH]; intros [|b w]; try (unfold dotR, sumR; simpl; unfold Rdiv; ring).
  cbn [map]. rewrite !dotR_cons, IH. unfold Rdiv. ring.
Qed.
Lemma dotR_sym v w : dotR v w = dotR w v.
Proof.
  revert w. induction v as [|a v IH]; intros [|b w]; try reflexivity. rewrite !dotR_cons, IH. ring.
Qed.

Lemma dotR_self_nonneg v : 0 <= dotR v v.
Proof. induction v as [|a v IH]; [unfold dotR, sumR; simpl; lra|]. rewrite dotR_cons. nra. Qed.

Lemma normalise_unit v : dotR v v > 0 -> dotR (vnormalise v) (vnormalise v) = 1.
Proof.
  intros H. unfold vnormalise. rewrite dotR_scale_l, dotR_sym, dotR_scale_l.
  unfold vnorm. rewrite vdot_dotR.
  assert (S : sqrt (dotR v v) * sqrt (dotR v v) = dotR v v) by (apply sqrt_sqrt; lra).
  assert (P : sqrt (dotR v v) > 0) by (apply sqrt_lt_R0; exact H).
  unfold Rdiv. rewrite Rmult_assoc, <- Rinv_mult. rewrite S. apply Rinv_r. lra.
Qed.

Lemma fold_sq l : fold_left (fun a i => a + i ^ 2) l 0 = dotR l l.
Proof.
  rewrite <- vdot_dotR. unfold vdot.
  assert (H : forall l s, fold_left (fun a i => a + i ^ 2) l s
            = fold_left (fun out (ij : R * R) => out + fst ij * snd ij) (combine l l) s).
  { induction l0 as [|a l0 IH]; intros s; simpl; [reflexivity|]. rewrite IH. f_equal. ring. }
  apply H.
Qed.

Lemma vsub_nonzero v0 v1 : length v0 = length v1 -> v0 <> v1 -> dotR (vsub v1 v0) (vsub v1 v0) > 0.
Proof.
  rewrite <- vdot_dotR. intros L Hne. apply sq_sum_pos. revert v1 L Hne.
  induction v0 as [|a v0 IH]; intros [|b v1] L Hne; try discriminate L.
  - contradiction Hne; reflexivity.
  - destruct (Req_EM_T b a) as [->|N].
    + destruct (IH v1) as [x [Hin Hx]]; [simpl in L; lia|congruence|]. exists x. split; [right; exact Hin|exact Hx].
    + exists (b - a). split; [left; reflexivity|lra].
Qed.

Lemma tangent_unit v0 v1 r : length v0 = length v1 -> v0 <> v1 -> make_reference CInterval [v0; v1] = Ok r ->
  exists t s, tangent r = Ok t /\ dotR t t = 1 /\ s > 0 /\ length t = length v0 /\
    forall j, nth j t 0 = s * (nth j v1 0 - nth j v0 0).
Proof.
  intros L N Hr. injection Hr as <-. unfold tangent. cbn [r_type tdim Nat.eqb r_axes].
  rewrite fold_sq. set (a := vsub v1 v0). assert (P : dotR a a > 0) by (apply vsub_nonzero; assumption).
  set (n := sqrt (dotR a a)). assert (Pn : n > 0) by (apply sqrt_lt_R0; exact P).
  set (u := map (fun i => i / n) a).
  assert (U : dotR u u = 1).
  { change (u) with (map (fun i => i / n) a). replace n with (vnorm a) by (unfold vnorm; rewrite vdot_dotR; reflexivity).
    apply normalise_unit; exact P. }
  assert (Nu : vnorm u = 1) by (unfold vnorm; rewrite vdot_dotR, U; exact sqrt_1).
  exists (vnormalise u), (/ n). split; [reflexivity|]. split; [apply normalise_unit; lra|].
  split; [apply Rinv_0_lt_compat; exact Pn|].
  assert (La : length a = length v0) by (unfold a, vsub; rewrite map_length, combine_length; lia).
  split; [unfold vnormalise, u; rewrite !map_length; exact La|].
  intros j. unfold vnormalise. rewrite Nu. unfold u. rewrite map_map.
  destruct (Nat.lt_ge_cases j (length v0)) as [Hj|Hj].
  - rewrite (nth_indep _ 0 ((fun x => x / n / 1) 0)) by (rewrite map_length; lia).
    rewrite (map_nth (fun x => x / n / 1)).
    assert (E : nth j a 0 = nth j v1 0 - nth j v0 0).
    { unfold a, vsub. rewrite (nth_indep _ 0 ((fun ij => fst ij - snd ij) (0, 0))) by (rewrite map_length, combine_length; lia).
      rewrite (map_nth (fun ij : R * R => fst ij - snd ij)), combine_nth by lia. reflexivity. }
    rewrite E. field. lra.
  - rewrite !nth_overflow by (rewrite ?map_length; lia). ring.
Qed.

Lemma normal2_unit v0 v1 r : length v0 = 2%nat -> length v1 = 2%nat -> v0 <> v1 ->
  make_reference CInterval [v0; v1] = Ok r ->
  exists t n, tangent r = Ok t /\ normal r = Ok n /\ dotR n n = 1 /\ dotR n t = 0 /\ length n = 2%nat /\
    nth 0 t 0 * nth 1 n 0 - nth 1 t 0 * nth 0 n 0 > 0.
Proof.
  intros L0 L1 N Hr.
  destruct (tangent_unit v0 v1 r) as (t & s & Ht & Hu & Hs & Hl & Hj); try assumption; [lia|].
  destruct v0 as [|a0 [|a1 [|]]]; try discriminate L0. destruct v1 as [|b0 [|b1 [|]]]; try discriminate L1.
  injection Hr as <-. exists t. eexists. split; [exact Ht|]. split.
  { unfold normal, gdim. cbn [r_type r_origin r_axes tdim length]. reflexivity. }
  unfold vsub. cbn [combine map fst snd nth].
  assert (P : dotR [- (b1 - a1); b0 - a0] [- (b1 - a1); b0 - a0] > 0).
  { assert (Q := vsub_nonzero [a0; a1] [b0; b1] eq_refl N). unfold vsub in Q. cbn [combine map fst snd] in Q.
    rewrite !dotR_cons in *. change (dotR [] []) with 0 in *. lra. }
  split; [apply normalise_unit; exact P|].
  destruct t as [|t0 [|t1 [|]]]; try discriminate Hl.
  pose proof (Hj 0%nat) as J0. pose proof (Hj 1%nat) as J1. cbn [nth] in J0, J1.
  unfold vnormalise. set (k := vnorm _).
  assert (K : k > 0) by (unfold k, vnorm; rewrite vdot_dotR; apply sqrt_lt_R0; exact P).
  split; [|split; [reflexivity|]].
  - rewrite dotR_scale_l, !dotR_cons. change (dotR [] []) with 0. subst t0 t1. field. lra.
  - cbn [map nth]. subst t0 t1. rewrite !dotR_cons in P. change (dotR [] []) with 0 in P.
    replace (s * (b0 - a0) * ((b0 - a0) / k) - s * (b1 - a1) * (- (b1 - a1) / k))
      with (s * (/ k) * (- (b1 - a1) * - (b1 - a1) + ((b0 - a0) * (b0 - a0) + 0))) by (field; lra).
    apply Rmult_lt_0_compat; [|exact P]. apply Rmult_lt_0_compat; [exact Hs|apply Rinv_0_lt_compat; exact K].
Qed.

Lemma normal3_unit c vs r : (c = CTriangle \/ c = CQuadrilateral) -> points (nvert c) 3 vs ->
  (edge_minor vs 1 2 0 1 <> 0 \/ edge_minor vs 1 2 0 2 <> 0 \/ edge_minor vs 1 2 1 2 <> 0) ->
  make_reference c vs = Ok r ->
  exists n, normal r = Ok n /\ dotR n n = 1 /\ length n = 3%nat /\
    dotR n (map (fun j => co vs 1 j - co vs 0 j) [0; 1; 2]%nat) = 0 /\
    dotR n (map (fun j => co vs 2 j - co vs 0 j) [0; 1; 2]%nat) = 0 /\
    nth 0 n 0 * edge_minor vs 1 2 1 2 + nth 1 n 0 * edge_minor vs 1 2 2 0
    + nth 2 n 0 * edge_minor vs 1 2 0 1 > 0.
Proof.
  intros Hc Hp Hm Hr.
  assert (G : exists x0 y0 z0 x1 y1 z1 x2 y2 z2 l, vs = [x0; y0; z0] :: [x1; y1; z1] :: [x2; y2; z2] :: l /\
     r = {| r_type := c; r_vertices := vs; r_origin := [x0; y0; z0];
            r_axes := [vsub [x1; y1; z1] [x0; y0; z0]; vsub [x2; y2; z2] [x0; y0; z0]] |}).
  { destruct Hc as [-> | ->]; unfold nvert in Hp; cbn [reference_vertices length] in Hp; split_points Hp;
    injection Hr as <-; do 10 eexists; split; reflexivity. }
  destruct G as (x0 & y0 & z0 & x1 & y1 & z1 & x2 & y2 & z2 & l & -> & ->).
  unfold edge_minor, co in *. cbn [nth map] in *.
  set (n0 := (y1 - y0) * (z2 - z0) - (z1 - z0) * (y2 - y0)).
  set (n1 := (z1 - z0) * (x2 - x0) - (x1 - x0) * (z2 - z0)).
  set (n2 := (x1 - x0) * (y2 - y0) - (y1 - y0) * (x2 - x0)).
  assert (P : dotR [n0; n1; n2] [n0; n1; n2] > 0).
  { rewrite !dotR_cons. change (dotR [] []) with 0.
    assert (Q : n0 <> 0 \/ n1 <> 0 \/ n2 <> 0).
    { destruct Hm as [Hm|[Hm|Hm]]; [right; right|right; left|left]; intros E; apply Hm; unfold n0, n1, n2 in E; lra. }
    destruct Q as [Q|[Q|Q]]; nra. }
  exists (vnormalise [n0; n1; n2]). split.
  { unfold normal, gdim. destruct Hc as [-> | ->]; reflexivity. }
  split; [apply normalise_unit; exact P|]. split; [reflexivity|].
  unfold vnormalise. set (k := vnorm _).
  assert (K : k > 0) by (unfold k, vnorm; rewrite vdot_dotR; apply sqrt_lt_R0; exact P).
  clearbody k.
  split; [rewrite dotR_scale_l, !dotR_cons; change (dotR [] []) with 0; unfold n0, n1, n2; field; lra|].
  split; [rewrite dotR_scale_l, !dotR_cons; change (dotR [] []) with 0; unfold n0, n1, n2; field; lra|].
  cbn [map nth]. rewrite !dotR_cons in P. change (dotR [] []) with 0 in P.
  match goal with |- ?G > 0 => replace G with ((/ k) * (n0 * n0 + (n1 * n1 + (n2 * n2 + 0)))) by (unfold n0, n1, n2; field; lra) end.
  apply Rmult_lt_0_compat; [apply Rinv_0_lt_compat; exact K|exact P].
Qed.
