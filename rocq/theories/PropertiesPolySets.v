(** Properties C01 - C10: polynomial sets (polysets.py). *)
From Coq Require Import String Arith ZArith Reals Lia Lra List.
From Verif Require Import Base PolyLib PolySetsModel PolySetsProofs PolyVec RTNedelecProofs
  NedelecSpan PyramidProofs SerendipityFields.
Import ListNotations.
Open Scope nat_scope.

(** * C01 *)
Theorem C01_simplex_sets_complete : forall d n,
  (1 <= d <= 3 -> exists l, polynomial_set_1d d n = Ok l /\
     NoDup l /\ (forall m, In m l <-> length m = d /\ mdeg m <= n) /\
     is_basis (map meval l) (poly_space (fun m => length m = d /\ mdeg m <= n)) /\
     ((d = 1 /\ length l = n + 1) \/ (d = 2 /\ 2 * length l = (n + 1) * (n + 2)) \/
      (d = 3 /\ 6 * length l = (n + 1) * (n + 2) * (n + 3)))) /\
  (~ 1 <= d <= 3 -> polynomial_set_1d d n = Err ValueError).
Proof.
  intros d n. split.
  - intros Hd. destruct (polynomial_set_1d_ok d n Hd) as (l & Hl & H1 & H2 & H3). exists l.
    exact (conj Hl (conj H1 (conj H2 (conj H3 (polynomial_set_1d_length d n l Hl))))).
  - exact (polynomial_set_1d_err d n).
Qed.
Print Assumptions C01_simplex_sets_complete.
Example C01_case : polynomial_set_1d 2 2 = Ok [[0;0];[1;0];[2;0];[0;1];[1;1];[0;2]]
  /\ polynomial_set_1d 4 1 = Err ValueError.
Proof. split; reflexivity. Qed.

(** * C02 *)
Theorem C02_tensor_sets_complete : forall d n, 1 <= d <= 3 ->
  NoDup (quolynomial_set_1d d n) /\
  (forall m, In m (quolynomial_set_1d d n) <-> length m = d /\ Forall (fun e => e <= n) m) /\
  is_basis (map meval (quolynomial_set_1d d n)) (poly_space (fun m => length m = d /\ Forall (fun e => e <= n) m)) /\
  length (quolynomial_set_1d d n) = (n + 1) ^ d.
Proof.
  intros d n Hd. destruct (quolynomial_set_1d_ok d n (proj2 Hd)) as (H1 & H2 & H3).
  exact (conj H1 (conj H2 (conj H3 (quolynomial_set_1d_length d n)))).
Qed.
Print Assumptions C02_tensor_sets_complete.
Example C02_case : quolynomial_set_1d 2 1 = [[0;0];[0;1];[1;0];[1;1]].
Proof. reflexivity. Qed.

(** * C03 *)
Theorem C03_prism_set_complete : forall n, exists l, prism_polynomial_set_1d 3 n = Ok l /\
  NoDup l /\ (forall m, In m l <-> exists i j k, m = [i; j; k] /\ i + j <= n /\ k <= n) /\
  is_basis (map meval l) (poly_space (fun m => exists i j k, m = [i; j; k] /\ i + j <= n /\ k <= n)) /\
  2 * length l = (n + 1) * (n + 1) * (n + 2).
Proof.
  intros n. destruct (prism_polynomial_set_1d_ok n) as (l & Hl & (H1 & H2 & H3) & H4).
  exists l. exact (conj Hl (conj H1 (conj H2 (conj H3 H4)))).
Qed.
Print Assumptions C03_prism_set_complete.
Example C03_prism_case : prism_polynomial_set_1d 3 1 = Ok [[0;0;0];[1;0;0];[0;1;0];[0;0;1];[1;0;1];[0;1;1]].
Proof. reflexivity. Qed.

Theorem C03_pyramid_set : forall n, exists l, pyramid_polynomial_set_1d 3 n = Ok l /\
  NoDup l /\
  independent_off (map rmeval l) /\
  (forall f, poly_space (fun m => length m = 3 /\ mdeg m <= n) f -> in_span_off (map rmeval l) f) /\
  length l = list_sum (map (fun k => k * k) (seq 0 (n + 2))).
Proof.
  intros n. exists (pyr_list n). split; [exact (pyr_list_ok n)|].
  split; [exact (pyr_list_nodup n)|]. split; [exact (pyramid_independent n)|].
  split; [exact (pyramid_contains_complete n)|].
  rewrite pyr_length. unfold range. replace (S (n + 1)) with (n + 2) by lia. reflexivity.
Qed.
Print Assumptions C03_pyramid_set.
Example C03_pyramid_case : pyramid_polynomial_set_1d 3 1 =
  Ok [([0;0;0],0);([0;1;0],0);([1;0;0],0);([1;1;0],1);([0;0;1],0)].
Proof. reflexivity. Qed.

(** The dispatcher picks the set of the cell; every unknown name is rejected. *)
Theorem C03_polynomial_set_dispatch : forall n,
  let poly cell ok := exists l, polynomial_set cell n = Ok (map (fun m => (m, 0)) l) /\ lists_basis l ok in
  poly "interval"%string (complete_mono 1 n) /\
  poly "triangle"%string (complete_mono 2 n) /\
  poly "tetrahedron"%string (complete_mono 3 n) /\
  poly "quadrilateral"%string (tensor_mono 2 n) /\
  poly "hexahedron"%string (tensor_mono 3 n) /\
  poly "prism"%string (prism_mono n) /\
  (exists l, polynomial_set "pyramid" n = Ok l /\ pyramid_polynomial_set_1d 3 n = Ok l) /\
  (forall cell, ~ In cell ["interval"; "triangle"; "tetrahedron"; "quadrilateral"; "hexahedron";
                           "prism"; "pyramid"]%string -> polynomial_set cell n = Err ValueError).
Proof.
  intros n poly. unfold poly.
  destruct (polynomial_set_1d_ok 1 n ltac:(lia)) as (l1 & E1 & H1).
  destruct (polynomial_set_1d_ok 2 n ltac:(lia)) as (l2 & E2 & H2).
  destruct (polynomial_set_1d_ok 3 n ltac:(lia)) as (l3 & E3 & H3).
  destruct (prism_polynomial_set_1d_ok n) as (l4 & E4 & H4 & _).
  split; [exists l1; split; [unfold polynomial_set; simpl String.eqb; cbv iota; rewrite E1; reflexivity|exact H1]|].
  split; [exists l2; split; [unfold polynomial_set; simpl String.eqb; cbv iota; rewrite E2; reflexivity|exact H2]|].
  split; [exists l3; split; [unfold polynomial_set; simpl String.eqb; cbv iota; rewrite E3; reflexivity|exact H3]|].
  split; [exists (quolynomial_set_1d 2 n); split; [reflexivity|apply quolynomial_set_1d_ok; lia]|].
  split; [exists (quolynomial_set_1d 3 n); split; [reflexivity|apply quolynomial_set_1d_ok; lia]|].
  split; [exists l4; split; [unfold polynomial_set; simpl String.eqb; cbv iota; rewrite E4; reflexivity|exact H4]|].
  split; [exists (pyr_list n); split; [exact (pyr_list_ok n)|exact (pyr_list_ok n)]|].
  intros cell Hc. unfold polynomial_set.
  repeat match goal with |- context [String.eqb cell ?s] =>
    destruct (String.eqb_spec cell s) as [->|_]; [exfalso; apply Hc; simpl; tauto|] end.
  reflexivity.
Qed.
Print Assumptions C03_polynomial_set_dispatch.
Example C03_dispatch_case : polynomial_set "circle" 3 = Err ValueError /\
  polynomial_set "triangle" 1 = Ok [([0;0],0);([1;0],0);([0;1],0)].
Proof. split; reflexivity. Qed.

(** * C04: [F] has exactly [r] components, monomial [m] in component [c] and
    zero elsewhere. *)
Theorem C04_vector_sets : forall d r n, 1 <= d <= 3 ->
  (exists L, polynomial_set_vector d r n = Ok L /\ NoDup L /\
     forall F, In F L <-> exists c m, c < r /\ (length m = d /\ mdeg m <= n) /\ unit_field r c m F) /\
  (NoDup (quolynomial_set_vector d r n) /\
     forall F, In F (quolynomial_set_vector d r n) <->
       exists c m, c < r /\ (length m = d /\ Forall (fun e => e <= n) m) /\ unit_field r c m F) /\
  (NoDup (serendipity_set_vector d r n) /\
     forall F, In F (serendipity_set_vector d r n) <->
       exists c m, c < r /\ (length m = d /\ n < mdeg m /\ superlinear_degree m <= n) /\ unit_field r c m F) /\
  (exists L, prism_polynomial_set_vector 3 r n = Ok L /\ NoDup L /\
     forall F, In F L <-> exists c m, c < r /\ (exists i j k, m = [i; j; k] /\ i + j <= n /\ k <= n) /\ unit_field r c m F).
Proof.
  intros d r n Hd. split; [|split; [|split]].
  - destruct (polynomial_set_vector_ok d r n Hd) as (L & HL & H1 & H2). exists L. exact (conj HL (conj H1 H2)).
  - exact (quolynomial_set_vector_ok d r n (proj2 Hd)).
  - exact (vectorise_ok r _ _ (serendipity_set_1d_nodup d n Hd) (fun m => serendipity_set_1d_in d n m Hd)).
  - destruct (prism_polynomial_set_1d_ok n) as (l & Hl & (H1 & H2 & _) & _).
    exists (vectorise r l). split; [unfold prism_polynomial_set_vector; rewrite Hl; reflexivity|].
    exact (vectorise_ok r l _ H1 H2).
Qed.
Print Assumptions C04_vector_sets.
Example C04_case : polynomial_set_vector 1 2 1 = Ok
  [ [[(1%Z,[0])];[]]; [[];[(1%Z,[0])]]; [[(1%Z,[1])];[]]; [[];[(1%Z,[1])]] ]
  /\ unit_field 2 1 [1] [[];[(1%Z,[1])]] /\ polynomial_set_vector 5 2 1 = Err ValueError.
Proof.
  split; [reflexivity|]. split; [|reflexivity]. split; [reflexivity|].
  intros [|[|j]] Hj; [reflexivity|reflexivity|lia].
Qed.

(** * C05: [is_mono_times_x d m F] says F(x) = x^m * x at every point. *)
Theorem C05_raviart_thomas_enrichment : forall d n, 2 <= d <= 3 ->
  exists X U, Hdiv_polynomials d d (S n) = Ok X /\ polynomial_set_vector d d n = Ok U /\ NoDup X /\
    (forall F, In F X -> exists m, length m = d /\ mdeg m = n /\ is_mono_times_x d m F) /\
    (forall m, length m = d -> mdeg m = n -> exists F, In F X /\ is_mono_times_x d m F) /\
    vindependent (map veval (U ++ X)) /\
    ((d = 2 /\ length X = S n) \/ (d = 3 /\ 2 * length X = S n * (S n + 1))).
Proof.
  intros d n Hd. destruct (Hdiv_polynomials_spec d (S n) Hd) as (X & HX & Hnd & H1 & H2 & H3 & H4).
  destruct (polynomial_set_vector_ok d d n ltac:(lia)) as (U & HU & HUU).
  exists X, U. split; [exact HX|]. split; [exact HU|]. split; [exact Hnd|].
  split; [intros F HF; destruct (H1 F HF) as (m & Hl & Hm & HF'); exists m; split; [exact Hl|split; [lia|exact HF']]|].
  split; [intros m Hl Hm; apply H2; [exact Hl|lia]|].
  split; [exact (enriched_independent d n U X HUU Hnd H3 H4)|exact (Hdiv_polynomials_length d (S n) X HX)].
Qed.
Print Assumptions C05_raviart_thomas_enrichment.
Example C05_case : Hdiv_polynomials 2 2 2 = Ok
  [ [[(1%Z,[2;0])];[(1%Z,[1;1])]]; [[(1%Z,[1;1])];[(1%Z,[0;2])]] ] /\
  Hdiv_polynomials 2 3 2 = Err AssertionError /\ Hdiv_polynomials 1 1 2 = Err ValueError.
Proof. repeat split. Qed.

(** * C06: [nedelec_S d n P]: homogeneous fields of degree n (real coefficients)
    with x . P(x) = 0 at every point x. *)
Theorem C06_nedelec_enrichment : forall d n, 2 <= d <= 3 ->
  exists X U, Hcurl_polynomials d d (S n) = Ok X /\ polynomial_set_vector d d n = Ok U /\ NoDup X /\
    (forall F, In F X -> homogeneous d (S n) F) /\
    (forall F v, In F X -> x_dot d (veval F) v = 0%R) /\
    (forall P, nedelec_S d (S n) P -> vin_span (map veval X) (rveval P)) /\
    vindependent (map veval (U ++ X)) /\
    ((d = 2 /\ length X = S n) \/ (d = 3 /\ length X = S n * (S n + 2))).
Proof.
  intros d n Hd. destruct (Hcurl_polynomials_spec d (S n) Hd) as (X & HX & Hnd & H1 & H2 & H3).
  destruct (polynomial_set_vector_ok d d n ltac:(lia)) as (U & HU & HUU).
  exists X, U. split; [exact HX|]. split; [exact HU|]. split; [exact Hnd|].
  split; [intros F HF; exact (proj1 (H1 F HF))|]. split; [intros F v HF; exact (H2 F v HF)|].
  split.
  { intros P HP. destruct (Nat.eq_dec d 2) as [->|Hd2].
    - exact (nedelec2_span (S n) X P ltac:(lia) HX HP).
    - assert (d = 3) by lia. subst d. exact (nedelec3_span (S n) X P ltac:(lia) HX HP). }
  split; [exact (enriched_independent d n U X HUU Hnd H1 H3)|exact (Hcurl_polynomials_length d (S n) X HX)].
Qed.
Print Assumptions C06_nedelec_enrichment.
Example C06_case : Hcurl_polynomials 3 3 1 = Ok
  [ [[(1%Z,[0;0;1])];[];[((-1)%Z,[1;0;0])]]; [[];[(1%Z,[0;0;1])];[((-1)%Z,[0;1;0])]];
    [[(1%Z,[0;1;0])];[((-1)%Z,[1;0;0])];[]] ] /\
  nedelec_S 2 2 [[(3%R,[0;2])]; [((-3)%R,[1;1])]].
Proof.
  split; [reflexivity|]. split; [reflexivity|]. split.
  - repeat constructor.
  - intros v. unfold x_dot, rveval, vcomp. cbn. unfold meval. cbn. ring.
Qed.

(** * C07 *)
Theorem C07_tensor_hdiv_hcurl : forall d n, 2 <= d <= 3 ->
  (exists L, Hdiv_quolynomials d d (S n) = Ok L /\ NoDup (quolynomial_set_vector d d n ++ L) /\
     forall F, In F (quolynomial_set_vector d d n ++ L) <->
       exists c m, c < d /\ (length m = d /\ forall i, i < d -> nth i m 0 <= if i =? c then S n else n) /\
                   unit_field d c m F) /\
  (exists L, Hcurl_quolynomials d d (S n) = Ok L /\ NoDup (quolynomial_set_vector d d n ++ L) /\
     forall F, In F (quolynomial_set_vector d d n ++ L) <->
       exists c m, c < d /\ (length m = d /\ forall i, i < d -> nth i m 0 <= if i =? c then n else S n) /\
                   unit_field d c m F).
Proof.
  intros d n Hd. split.
  - destruct (rt_quolynomials d n Hd) as (L & HL & H1 & H2). exists L. exact (conj HL (conj H1 H2)).
  - destruct (nedelec_quolynomials d n Hd) as (L & HL & H1 & H2). exists L. exact (conj HL (conj H1 H2)).
Qed.
Print Assumptions C07_tensor_hdiv_hcurl.
Example C07_case : Hdiv_quolynomials 2 2 1 = Ok [ [[(1%Z,[1;0])];[]]; [[];[(1%Z,[0;1])]] ] /\
  Hcurl_quolynomials 2 2 1 = Ok [ [[(1%Z,[0;1])];[]]; [[];[(1%Z,[1;0])]] ].
Proof. split; reflexivity. Qed.

(** * C08 *)
Theorem C08_serendipity_superlinear : forall d n, 1 <= d <= 3 ->
  exists l, polynomial_set_1d d n = Ok l /\
    NoDup (l ++ serendipity_set_1d d n) /\
    (forall m, In m (l ++ serendipity_set_1d d n) <-> length m = d /\ superlinear_degree m <= n) /\
    is_basis (map meval (l ++ serendipity_set_1d d n))
      (poly_space (fun m => length m = d /\ superlinear_degree m <= n)).
Proof.
  intros d n Hd. destruct (serendipity_complete d n Hd) as (l & Hl & H1 & H2 & H3).
  exists l. exact (conj Hl (conj H1 (conj H2 H3))).
Qed.
Print Assumptions C08_serendipity_superlinear.
Example C08_case : serendipity_set_1d 2 2 = [[1;2];[2;1]] /\ superlinear_degree [1;2] = 2
  /\ serendipity_set_1d 2 1 = [[1;1]].
Proof. repeat split. Qed.

(** * C09: true in 3D ... *)
Theorem C09_hdiv_serendipity_div_free_partial : forall n X F v,
  Hdiv_serendipity 3 3 n = Ok X -> In F X -> is_div 3 (veval F) v 0%R.
Proof. exact Hdiv_serendipity_3d. Qed.
Print Assumptions C09_hdiv_serendipity_div_free_partial.
Example C09_case_3d : exists X, Hdiv_serendipity 3 3 1 = Ok X /\ length X = 6.
Proof. eexists. split; reflexivity. Qed.

(** ... but false in 2D for every order: a member has non-zero divergence at
    some point, and its divergence is not a polynomial of degree n - 1. *)
Theorem C09_hdiv_serendipity_div_free_refuted : forall n, exists X F,
  Hdiv_serendipity 2 2 n = Ok X /\ In F X /\ (exists v, ~ is_div 2 (veval F) v 0%R) /\
  (1 <= n -> ~ exists g, poly_space (fun m => length m = 2 /\ mdeg m <= n - 1) g /\
                        forall v, is_div 2 (veval F) v (g v)).
Proof. exact Hdiv_serendipity_2d_bad. Qed.
Print Assumptions C09_hdiv_serendipity_div_free_refuted.
Example C09_case_2d : Hdiv_serendipity 2 2 1 = Ok
  [ [[(1%Z,[2;0])];[(2%Z,[1;1])]]; [[(2%Z,[1;1])];[(1%Z,[0;2])]] ].
Proof. reflexivity. Qed.

(** * C10: false in 2D: the first field has rotation -2(n+1)x^n. *)
Theorem C10_hcurl_serendipity_curl_free_refuted : forall n, exists X F,
  Hcurl_serendipity 2 2 n = Ok X /\ In F X /\
  (forall v, is_rot (veval F) v (- (2 * INR (n + 1) * v 0%nat ^ n))%R) /\
  ~ is_rot (veval F) (fun _ => 1%R) 0%R.
Proof.
  intros n. destruct (Hcurl_serendipity_2d_bad n) as (X & F & HX & HF & Hr). exists X, F.
  split; [exact HX|]. split; [exact HF|]. split; [exact Hr|]. intros H0.
  exact (rot_nonzero n _ (is_rot_unique _ _ _ _ H0 (Hr _))).
Qed.
Print Assumptions C10_hcurl_serendipity_curl_free_refuted.
Example C10_case_2d : Hcurl_serendipity 2 2 1 = Ok
  [ [[(2%Z,[1;1])];[((-1)%Z,[2;0])]]; [[(1%Z,[0;2])];[(2%Z,[1;1])]] ].
Proof. reflexivity. Qed.

(** What remains true: the second 2D field is rotation free; in 3D each field is
    either orthogonal to x or a curl-free gradient of a serendipity monomial,
    and the gradients of all serendipity monomials are there. *)
Theorem C10_hcurl_serendipity_curl_free_partial : forall n,
  (exists X F, Hcurl_serendipity 2 2 n = Ok X /\ In F X /\ forall v, is_rot (veval F) v 0%R) /\
  (exists X, Hcurl_serendipity 3 3 n = Ok X /\
    (forall F, In F X -> (forall v, x_dot 3 (veval F) v = 0%R) \/ (forall v, is_curl_zero (veval F) v)) /\
    (forall m, length m = 3 -> n + 1 < mdeg m -> superlinear_degree m <= n + 1 ->
       exists F, In F X /\ forall v i, i < 3 -> is_partial i (meval m) v (vcomp (veval F) i v))).
Proof.
  intros n. split; [exact (Hcurl_serendipity_2d_good n)|].
  destruct (Hcurl_serendipity 3 3 n) as [X|e] eqn:E; [|discriminate].
  exists X. split; [reflexivity|]. split.
  - intros F HF. destruct (Hcurl_serendipity_3d n X F E HF) as [H|(m & _ & ->)]; [left; exact H|].
    right. exact (grad_curl_free [(1%Z, m)]).
  - intros m. exact (Hcurl_serendipity_3d_gradients n X m E).
Qed.
Print Assumptions C10_hcurl_serendipity_curl_free_partial.
Example C10_case_3d : superlinear_degree [1;1;2] <= 1 + 1 /\ 1 + 1 < mdeg [1;1;2] /\
  exists X, Hcurl_serendipity 3 3 1 = Ok X /\ length X = 2 + length (serendipity_set_1d 3 2).
Proof. split; [simpl; lia|]. split; [simpl; lia|]. eexists. split; reflexivity. Qed.
