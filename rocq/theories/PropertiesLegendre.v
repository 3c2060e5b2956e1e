(** C12, C13: tables of orthogonal polynomials (symfem/polynomials/legendre.py). *)
From Coq Require Import String Arith ZArith Reals Lia Lra Bool Sorted List.
From Verif Require Import Base PolyLib PolySetsModel PolyVec LinAlg LegendreModel LegendreSpec LegendreTables LegendreProofs LegendreTet LegendreRows LegendrePyramid LegendreDeriv.
Import ListNotations.
Open Scope R_scope.

Lemma good_at2 D d ni vars derivs t : good_table D d ni vars derivs t -> forall a m i f, nth_error (multi_indices d derivs) a = Some m ->
  forall G, (forall a m i, nth_error (multi_indices d derivs) a = Some m -> (i < ni)%nat -> entry t (a, i) (G i m)) ->
  at2 t a i = Some f -> (i < ni)%nat /\ forall v, f v = G i m v.
Proof.
  intros [Sh _] a m i f Hm G HG Hf. unfold at2 in Hf. destruct (nth_error t a) as [row|] eqn:Er; [|discriminate].
  assert (Hi : (i < ni)%nat). { rewrite <- (shape_row _ _ _ _ _ Sh Er). apply nth_error_Some. rewrite Hf. discriminate. }
  split; [exact Hi|]. destruct (HG a m i Hm Hi) as (f' & Ef & Hv). unfold tget in Ef. cbn [fst snd] in Ef. rewrite Er, Hf in Ef. injection Ef as <-. exact Hv.
Qed.
Lemma counts_cons d k l : (k < d)%nat -> counts d (k :: l) = incr (counts d l) k.
Proof.
  unfold counts, range. assert (H : forall n s, (s <= k)%nat -> (k < s + n)%nat ->
    map (fun j => count_occ Nat.eq_dec (k :: l) j) (seq s n) = incr (map (fun j => count_occ Nat.eq_dec l j) (seq s n)) (k - s)).
  { induction n as [|n IH]; intros s H1 H2; [lia|]. cbn [seq map]. destruct (Nat.eq_dec s k) as [->|N].
    - rewrite Nat.sub_diag. cbn [incr]. f_equal; [apply count_occ_cons_eq; reflexivity|]. apply map_ext_in. intros j Hj. apply in_seq in Hj. apply count_occ_cons_neq. lia.
    - replace (k - s)%nat with (S (k - S s)) by lia. cbn [incr]. f_equal; [apply count_occ_cons_neq; auto|]. apply IH; lia. }
  intros L. rewrite (H d 0%nat) by lia. rewrite Nat.sub_0_r. reflexivity.
Qed.
Lemma iterated_ext (D : point -> Prop) vars l f g g' : iterated D vars l f g -> (forall v, g' v = g v) -> iterated D vars l f g'.
Proof.
  destruct l as [|k l]; cbn [iterated]; intros H E.
  - intros v Hv. rewrite E. apply H, Hv.
  - destruct H as (h & A & B). exists h. split; [exact A|]. intros v Hv. rewrite E. apply B, Hv.
Qed.
Lemma good_iterated (D : point -> Prop) d vars (G : list nat -> point -> R) : 
  (forall m k, (k < d)%nat -> length m = d -> forall v, D v -> is_partial (nth k vars 0%nat) (G m) v (G (incr m k) v)) ->
  forall f, (forall v, f v = G (counts d []) v) -> forall l, (forall k, In k l -> (k < d)%nat) -> iterated D vars l f (G (counts d l)).
Proof.
  intros H f Hf l. induction l as [|k l IH]; intros Hl; cbn [iterated]; [intros v _; symmetry; apply Hf|].
  exists (G (counts d l)). split; [apply IH; intros; apply Hl; right; assumption|]. intros v Hv. rewrite counts_cons by (apply Hl; left; reflexivity).
  apply H; [apply Hl; left; reflexivity| |exact Hv]. unfold counts. rewrite map_length. apply seq_length.
Qed.
Lemma length_multi d n a m : (d = 1 \/ d = 2 \/ d = 3)%nat -> nth_error (multi_indices d n) a = Some m -> length m = d.
Proof.
  intros [-> | [-> | ->]] H; [apply multi1_inv in H; destruct H as [-> _]; reflexivity|apply multi2_inv in H; destruct H as (? & ? & -> & _); reflexivity|].
  apply multi3_inv in H; destruct H as (? & ? & ? & -> & _); reflexivity.
Qed.
Lemma multi_zero d n : (d = 1 \/ d = 2 \/ d = 3)%nat -> nth_error (multi_indices d n) 0 = Some (counts d []).
Proof. unfold multi_indices. rewrite Nat.add_1_r. intros [-> | [-> | ->]]; reflexivity. Qed.

Definition table_spec (cell : string) (d ni : nat) (vars : list nat) (derivs : nat) (t : table) : Prop :=
  length t = length (multi_indices d derivs) /\ (forall row, In row t -> length row = ni) /\
  (forall a b m k i f g, nth_error (multi_indices d derivs) a = Some m -> nth_error (multi_indices d derivs) b = Some (incr m k) ->
     (k < d)%nat -> at2 t a i = Some f -> at2 t b i = Some g ->
     forall v, domain cell vars v -> is_partial (nth k vars 0%nat) f v (g v)) /\
  (forall l a i f g, (forall k, In k l -> (k < d)%nat) -> nth_error (multi_indices d derivs) a = Some (counts d l) ->
     at2 t 0 i = Some f -> at2 t a i = Some g -> iterated (domain cell vars) vars l f g).
Lemma good_spec cell d ni vars derivs t : (d = 1 \/ d = 2 \/ d = 3)%nat -> good_table (domain cell vars) d ni vars derivs t -> table_spec cell d ni vars derivs t.
Proof.
  intros Hd Gt. pose proof Gt as [[L F] (G & HG & HD)]. split; [exact L|]. split; [rewrite Forall_forall in F; exact F|]. split.
  - intros a b m k i f g Ha Hb Hk Hf Hg v Hv.
    destruct (good_at2 _ _ _ _ _ _ Gt a m i f Ha G HG Hf) as [Hi Ef]. destruct (good_at2 _ _ _ _ _ _ Gt b _ i g Hb G HG Hg) as [_ Eg].
    rewrite Eg. pose proof (HD i m k Hi Hk (length_multi _ _ _ _ Hd Ha) v Hv) as P. unfold is_partial in *. eapply derivable_pt_lim_ext; [|exact P]. intros x. symmetry. apply Ef.
  - intros l a i f g Hl Ha Hf Hg.
    destruct (good_at2 _ _ _ _ _ _ Gt 0%nat _ i f (multi_zero d derivs Hd) G HG Hf) as [Hi Ef]. destruct (good_at2 _ _ _ _ _ _ Gt a _ i g Ha G HG Hg) as [_ Eg].
    eapply iterated_ext; [|exact Eg]. apply (good_iterated _ d vars (G i)); [intros m k; apply HD; exact Hi|exact Ef|exact Hl].
Qed.
Lemma good_domain (D : point -> Prop) cell d ni vars derivs t : (forall v, domain cell vars v -> D v) -> good_table D d ni vars derivs t -> good_table (domain cell vars) d ni vars derivs t.
Proof. intros H [Sh (G & A & B)]. split; [exact Sh|]. exists G. split; [exact A|]. intros i m k Hi Hk Lm v Hv. apply B; auto. Qed.

(** C12.  For every supported cell, every order, number of derivatives and list of distinct variables of
    the right length, orthogonal_basis succeeds; the table has one row for every multi-index of total at
    most [derivs], all rows have as many entries as there are polynomials; the entry of the row of
    m + e_k is the k-th partial derivative of the entry of the row of m; and the entry of the row of a
    multi-index m is obtained from the entry of row 0 by differentiating in any sequence of directions
    with counts m.  At every point (for the pyramid: at every point with z <> 1, where the functions
    have a pole). *)
Theorem C12_derivative_tables cell d np vars order derivs :
  In (cell, (d, np)) cells -> length vars = d -> NoDup vars ->
  exists t, orthogonal_basis cell order derivs (Some vars) = Ok t /\
    length t = length (multi_indices d derivs) /\ (forall row, In row t -> length row = np order) /\
    (forall a b m k i f g, nth_error (multi_indices d derivs) a = Some m -> nth_error (multi_indices d derivs) b = Some (incr m k) ->
       (k < d)%nat -> at2 t a i = Some f -> at2 t b i = Some g ->
       forall v, domain cell vars v -> is_partial (nth k vars 0%nat) f v (g v)) /\
    (forall l a i f g, (forall k, In k l -> (k < d)%nat) -> nth_error (multi_indices d derivs) a = Some (counts d l) ->
       at2 t 0 i = Some f -> at2 t a i = Some g -> iterated (domain cell vars) vars l f g).
Proof.
  intros Hc L ND. change (exists t, orthogonal_basis cell order derivs (Some vars) = Ok t /\ table_spec cell d (np order) vars derivs t).
  assert (N2 : forall x y : nat, NoDup [x; y] -> x <> y). { intros x y H E. inversion H as [|? ? A _]; subst. apply A. left. reflexivity. }
  destruct Hc as [E|[E|[E|[E|[E|[E|[E|[]]]]]]]]; injection E as <- <- <-.
  - destruct vars as [|v0 [|]]; try discriminate L. destruct (interval_good order derivs v0) as (t & Et & H). exists t. split; [exact Et|].
    apply good_spec; [auto|]. eapply good_domain; [|exact H]. intros v _. exact I.
  - destruct vars as [|v0 [|v1 [|]]]; try discriminate L. destruct (triangle_good order derivs v0 v1 (N2 _ _ ND)) as (t & Et & H). exists t. split; [exact Et|].
    apply good_spec; [auto|]. eapply good_domain; [|exact H]. intros v _. exact I.
  - destruct vars as [|v0 [|v1 [|]]]; try discriminate L. destruct (quadrilateral_good order derivs v0 v1 (N2 _ _ ND)) as (t & Et & H). exists t. split; [exact Et|].
    apply good_spec; [auto|]. eapply good_domain; [|exact H]. intros v _. exact I.
  - destruct vars as [|v0 [|v1 [|v2 [|]]]]; try discriminate L. destruct (tetrahedron_good order derivs v0 v1 v2 ND) as (t & Et & H). exists t. split; [exact Et|].
    apply good_spec; [auto|]. eapply good_domain; [|exact H]. intros v _. exact I.
  - destruct vars as [|v0 [|v1 [|v2 [|]]]]; try discriminate L. destruct (hexahedron_good order derivs v0 v1 v2 ND) as (t & Et & H). exists t. split; [exact Et|].
    apply good_spec; [auto|]. eapply good_domain; [|exact H]. intros v _. exact I.
  - destruct vars as [|v0 [|v1 [|v2 [|]]]]; try discriminate L. destruct (prism_good order derivs v0 v1 v2 ND) as (t & Et & H). exists t. split; [exact Et|].
    apply good_spec; [auto|]. eapply good_domain; [|exact H]. intros v _. exact I.
  - destruct vars as [|v0 [|v1 [|v2 [|]]]]; try discriminate L. destruct (pyramid_good order derivs v0 v1 v2 ND) as (t & Et & H). exists t. split; [exact Et|].
    replace ((2 * order + 3) * (order + 2) * (order + 1) / 6)%nat with ((order + 1) * (order + 2) * (2 * order + 3) / 6)%nat in H by (f_equal; ring).
    apply good_spec; [auto|]. eapply good_domain; [|exact H]. intros v Hv. exact (Hv eq_refl).
Qed.
Print Assumptions C12_derivative_tables.

(** The default variables are x, y, z; a wrong number of variables is an AssertionError and every other
    cell a ValueError. *)
Theorem C12_arguments cell order derivs :
  (forall d np, In (cell, (d, np)) cells ->
     orthogonal_basis cell order derivs None = orthogonal_basis cell order derivs (Some (range d)) /\
     forall vars, length vars <> d -> orthogonal_basis cell order derivs (Some vars) = Err AssertionError) /\
  ((forall d np, ~ In (cell, (d, np)) cells) -> forall vars, orthogonal_basis cell order derivs vars = Err ValueError).
Proof.
  split.
  - intros d np Hc. destruct Hc as [E|[E|[E|[E|[E|[E|[E|[]]]]]]]]; injection E as <- <- <-; (split; [reflexivity|]);
      intros vars L; (destruct vars as [|v0 [|v1 [|v2 [|v3 vars]]]]; try reflexivity; exfalso; apply L; reflexivity).
  - intros H vars. unfold orthogonal_basis, cells in *.
    repeat match goal with |- context [String.eqb cell ?s] => destruct (String.eqb_spec cell s) as [->|?]; [exfalso; eapply H; simpl; tauto|] end. reflexivity.
Qed.
Print Assumptions C12_arguments.

(** In the table of the triangle of order 2 with 2 derivatives the row of d²/dxdy is row 4, and row 0
    contains a polynomial that is not constant. *)
Example C12_case : multi_indices 2 2 = [[0; 0]; [1; 0]; [0; 1]; [2; 0]; [1; 1]; [0; 2]]%nat /\ counts 2 [1; 0]%nat = [1; 1]%nat /\
  exists t f g, orthogonal_basis "triangle" 2 2 None = Ok t /\ at2 t 0 5 = Some f /\ at2 t 4 5 = Some g /\
    forall v, f v = 6 * v 0%nat ^ 2 + 6 * v 0%nat * v 1%nat + v 1%nat ^ 2 - 6 * v 0%nat - 2 * v 1%nat + 1 /\ g v = 6.
Proof.
  split; [reflexivity|]. split; [reflexivity|].
  destruct (triangle_table 2 2 0 1) as (t & E & Sh & H). exists t.
  destruct (H 0 0 2 0 ltac:(lia) ltac:(lia))%nat as (f & Ef & Hf). destruct (H 1 1 2 0 ltac:(lia) ltac:(lia))%nat as (g & Eg & Hg).
  assert (A : forall d i h, tget t d i = Ok h -> at2 t d i = Some h).
  { intros d i h. unfold tget, at2. destruct (nth_error t d) as [row|]; [|discriminate]. destruct (nth_error row i); [|discriminate]. intros X. injection X as ->. reflexivity. }
  exists f, g. split; [exact E|]. split; [apply (A 0%nat 5%nat); exact Ef|]. split; [apply (A 4%nat 5%nat); exact Eg|].
  intros v. rewrite Hf, Hg. cbn. split; field.
Qed.

(** C13.  The positions of the derivatives (and of the polynomials on triangles and tetrahedra):
    every multi-index of total at most n has its own position below the number of rows, every position
    is used, and the position is the place of the multi-index in the order by total degree. *)
Theorem C13_index_maps n :
  (forall p q, (p + q <= n)%nat <-> (index2 p q < length (multi_indices 2 n))%nat) /\
  (forall p q p' q', index2 p q = index2 p' q' -> p = p' /\ q = q') /\
  (forall a, (a < length (multi_indices 2 n))%nat -> exists p q, (p + q <= n)%nat /\ index2 p q = a) /\
  (forall p q, (p + q <= n)%nat -> nth_error (multi_indices 2 n) (index2 p q) = Some [p; q]) /\
  (forall p q r, (p + q + r <= n)%nat <-> (index3 p q r < length (multi_indices 3 n))%nat) /\
  (forall p q r p' q' r', index3 p q r = index3 p' q' r' -> p = p' /\ q = q' /\ r = r') /\
  (forall a, (a < length (multi_indices 3 n))%nat -> exists p q r, (p + q + r <= n)%nat /\ index3 p q r = a) /\
  (forall p q r, (p + q + r <= n)%nat -> nth_error (multi_indices 3 n) (index3 p q r) = Some [p; q; r]).
Proof.
  rewrite length_multi2, length_multi3.
  assert (B2 : forall p q, (index2 p q < (n + 1) * (n + 2) / 2)%nat -> (p + q <= n)%nat).
  { intros p q H. destruct (index2_surj n _ H) as (p' & q' & L & E). apply index2_inj in E. destruct E; subst. exact L. }
  assert (B3 : forall p q r, (index3 p q r < (n + 1) * (n + 2) * (n + 3) / 6)%nat -> (p + q + r <= n)%nat).
  { intros p q r H. destruct (index3_surj n _ H) as (p' & q' & r' & L & E). apply index3_inj in E. destruct E as (? & ? & ?); subst. exact L. }
  repeat match goal with |- _ /\ _ => split end.
  - intros p q. split; [apply index2_lt|apply B2].
  - intros. apply index2_inj. assumption.
  - intros a. apply index2_surj.
  - intros p q H. rewrite multi_indices2, nth_error_map, (proj2 (order2_nth n) p q H). reflexivity.
  - intros p q r. split; [apply index3_lt|apply B3].
  - intros. apply index3_inj. assumption.
  - intros a. apply index3_surj.
  - intros p q r H. rewrite multi_indices3, nth_error_map, (proj2 (order3_nth n) p q r H). reflexivity.
Qed.
Print Assumptions C13_index_maps.

(** The position of a polynomial of the pyramid: a bijection from the triples with max(i, j) + k <= n
    onto the positions below (n+1)(n+2)(2n+3)/6, in lexicographic order. *)
Theorem C13_pyramid_index n :
  (forall i j k, (Nat.max i j + k <= n)%nat -> (pyramid_index n i j k < (n + 1) * (n + 2) * (2 * n + 3) / 6)%nat) /\
  (forall i j k i' j' k', (Nat.max i j + k <= n)%nat -> (Nat.max i' j' + k' <= n)%nat ->
     pyramid_index n i j k = pyramid_index n i' j' k' -> i = i' /\ j = j' /\ k = k') /\
  (forall a, (a < (n + 1) * (n + 2) * (2 * n + 3) / 6)%nat -> exists i j k, (Nat.max i j + k <= n)%nat /\ pyramid_index n i j k = a) /\
  (forall i j k, (Nat.max i j + k <= n)%nat ->
     nth_error (flat_map (fun i => flat_map (fun j => map (fun k => (i, j, k)) (seq 0 (n + 1 - Nat.max i j))) (seq 0 (n + 1))) (seq 0 (n + 1)))
       (pyramid_index n i j k) = Some (i, j, k)).
Proof.
  replace ((n + 1) * (n + 2) * (2 * n + 3) / 6)%nat with ((2 * n + 3) * (n + 2) * (n + 1) / 6)%nat by (f_equal; ring).
  split; [apply pyramid_index_lt|]. split; [apply pyramid_index_inj|]. split; [apply pyramid_index_surj|].
  intros i j k H. pose proof (proj2 (orderp_nth n) i j k H) as E.
  assert (M : orderp n = map (fun '(i, j, k) => [i; j; k]) (flat_map (fun i => flat_map (fun j => map (fun k => (i, j, k)) (seq 0 (n + 1 - Nat.max i j))) (seq 0 (n + 1))) (seq 0 (n + 1)))).
  { unfold orderp, nest, range. rewrite map_flat_map. apply flat_map_ext. intros a. rewrite !map_flat_map. apply flat_map_ext. intros b. rewrite !map_map. reflexivity. }
  rewrite M in E. apply nth_error_map_inv in E. destruct E as ([[i' j'] k'] & E & X). injection X as -> -> ->. exact E.
Qed.
Print Assumptions C13_pyramid_index.
Example C13_case : map (fun m => match m with [p; q; r] => index3 p q r | _ => 0 end)%nat (multi_indices 3 2) = range 10 /\
  map (fun '(i, j, k) => pyramid_index 1 i j k) [(0, 0, 0); (0, 0, 1); (0, 1, 0); (1, 0, 0); (1, 1, 0)]%nat = range 5.
Proof. split; reflexivity. Qed.
