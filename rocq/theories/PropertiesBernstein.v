(** The Bernstein polynomials and the Bernstein element (C51). *)
From Coq Require Import String Arith Bool ZArith Reals Lra Lia List.
From Verif Require Import Base PolyLib PolySetsModel PolySetsProofs ReferencesModel CiarletModel ElementModel MomentsModel LinAlg UnisolvenceProofs
  LagrangeProofs BernsteinModel BernsteinProofs BernsteinSums.
Import ListNotations.
Open Scope R_scope.

(** * Specification: the simplex, and the closed form of a Bernstein polynomial *)
(** the point lies in the reference simplex of dimension d *)
Definition in_simplex (d : nat) (v : point) : Prop := (forall i, (i < d)%nat -> 0 <= v i) /\ sum d v <= 1.
(** n! / (a! x_0! x_1! ...) * (1 - sum v)^a * prod v_i^x_i where a = n - sum x *)
Definition bernstein_value (n : nat) (xs : list nat) (v : point) : R :=
  let a := (n - list_sum xs)%nat in
  INR (fact n) / (INR (fact a) * fold_right (fun x acc => INR (fact x) * acc) 1 xs)
  * ((1 - sum (length xs) v) ^ a * fold_right (fun ix acc => v (fst ix) ^ snd ix * acc) 1 (enumerate xs)).

(** C51.  In the interval, the triangle and the tetrahedron the Bernstein polynomials of order n are non-negative
    on the cell and sum to one at every point of space; there are binomial(n+d, d) of them, as many as there are
    functions in the polynomial set of the element, and they are a basis of the polynomials of degree at most n. *)
Theorem C51_partition_of_unity d n : d = 1%nat \/ d = 2%nat \/ d = 3%nat ->
  exists fs, bernstein_polynomials n d = Ok fs /\
    (forall f v, In f fs -> in_simplex d v -> 0 <= f v) /\
    (forall v, lincomb (repeat 1 (length fs)) fs v = 1) /\
    INR (length fs) = C (n + d) d /\
    is_basis fs (poly_space (fun m => length m = d /\ (mdeg m <= n)%nat)).
Proof.
  intros G. exists (bern n d). split; [apply bern_eq, G|]. destruct (powers_in d n G) as (ps & E & ND & I).
  split; [|split; [|split; [|split; [|split]]]].
  - intros f v Hf [Hv Hs]. rewrite (bern_powers n d ps E) in Hf. apply in_map_iff in Hf. destruct Hf as (p & <- & Hp). apply I in Hp.
    rewrite bernstein_pp by exact G. apply Rmult_le_pos; [left; apply choose_pos; apply Hp|]. apply pp_nonneg.
    destruct G as [-> | [-> | ->]]; unfold bary; cbn [lambdas]; unfold sum in Hs; simpl in Hs; repeat (apply Forall_cons; [try (apply Hv; lia); lra|]); apply Forall_nil.
  - intros v. transitivity (tot (map (fun f : sfun => f v) (bern n d))); [|apply bern_sum, G]. induction (bern n d) as [|f fs IH]; [reflexivity|]. cbn [length repeat lincomb map tot]. rewrite IH. ring.
  - rewrite (bern_powers n d ps E), map_length. destruct (polynomial_set_1d d n) as [poly|] eqn:Ep; [|destruct G as [-> | [-> | ->]]; discriminate Ep].
    rewrite (powers_length d n ps poly G E Ep). apply polyset_binomial; assumption.
  - apply bernstein_independent, G.
  - intros f Hf. rewrite (bern_powers n d ps E) in Hf. apply in_map_iff in Hf. destruct Hf as (p & <- & Hp). apply I in Hp. apply bernstein_degree; [exact G|apply Hp|apply Hp].
  - intros f Hf. apply space_in_span; [exact G|exact Hf].
Qed.
Print Assumptions C51_partition_of_unity.

(** Other dimensions are an error. *)
Theorem C51_other_dimensions d n : ~ (d = 1%nat \/ d = 2%nat \/ d = 3%nat) -> bernstein_polynomials n d = Err RuntimeError.
Proof. intros H. destruct d as [|[|[|[|d]]]]; try reflexivity; exfalso; apply H; auto. Qed.
Print Assumptions C51_other_dimensions.

(** The position given by the index formula of the degrees of freedom is that of the polynomial with these exponents. *)
Theorem C51_numbering n :
  (forall x, (x <= n)%nat -> exists fs f, bernstein_polynomials n 1 = Ok fs /\ nth_error fs x = Some f /\ forall v, f v = bernstein_value n [x] v) /\
  (forall x y, (x + y <= n)%nat -> exists fs f, bernstein_polynomials n 2 = Ok fs /\
     nth_error fs (Z.to_nat (index (Z.of_nat n) (Z.of_nat x) (Z.of_nat y) 0)) = Some f /\ forall v, f v = bernstein_value n [x; y] v) /\
  (forall x y z, (x + y + z <= n)%nat -> exists fs f, bernstein_polynomials n 3 = Ok fs /\
     nth_error fs (Z.to_nat (index (Z.of_nat n) (Z.of_nat x) (Z.of_nat y) (Z.of_nat z))) = Some f /\ forall v, f v = bernstein_value n [x; y; z] v).
Proof.
  split; [|split].
  - intros x H. destruct (powers_in 1 n ltac:(left; reflexivity)) as (ps & E & _ & _). exists (map (bernstein n 1) ps), (bernstein n 1 [(n - x)%nat; x]).
    unfold bernstein_polynomials. rewrite E. split; [reflexivity|]. rewrite nth_error_map, (position1 n x ps H E). split; [reflexivity|]. intros v.
    rewrite bernstein_pp by (left; reflexivity). rewrite choose_fact by (simpl; lia). unfold bernstein_value. cbn [list_sum fold_right length]. rewrite Nat.add_0_r.
    unfold bary, pp, sum, fct. simpl. rewrite ?Rplus_0_l. reflexivity.
  - intros x y H. assert (G : good_dim 2) by (right; left; reflexivity). destruct (powers_in 2 n G) as (ps & E & _ & _). exists (map (bernstein n 2) ps), (bernstein n 2 [(n - x - y)%nat; x; y]).
    unfold bernstein_polynomials. rewrite E. split; [reflexivity|]. rewrite nth_error_map, (position2 n x y ps H E). split; [reflexivity|]. intros v.
    rewrite bernstein_pp by exact G. rewrite choose_fact by (simpl; lia). unfold bernstein_value. cbn [list_sum fold_right length]. rewrite Nat.add_0_r.
    replace (n - (x + y))%nat with (n - x - y)%nat by lia. unfold bary, pp, sum, fct. simpl. replace (1 - v 0%nat - v 1%nat) with (1 - (0 + v 0%nat + v 1%nat)) by ring. reflexivity.
  - intros x y z H. assert (G : good_dim 3) by (right; right; reflexivity). destruct (powers_in 3 n G) as (ps & E & _ & _). exists (map (bernstein n 3) ps), (bernstein n 3 [(n - x - y - z)%nat; x; y; z]).
    unfold bernstein_polynomials. rewrite E. split; [reflexivity|]. rewrite nth_error_map, (position3 n x y z ps H E). split; [reflexivity|]. intros v.
    rewrite bernstein_pp by exact G. rewrite choose_fact by (simpl; lia). unfold bernstein_value. cbn [list_sum fold_right length]. rewrite Nat.add_0_r.
    replace (n - (x + (y + z)))%nat with (n - x - y - z)%nat by lia. unfold bary, pp, sum, fct. simpl. replace (1 - v 0%nat - v 1%nat - v 2%nat) with (1 - (0 + v 0%nat + v 1%nat + v 2%nat)) by ring. reflexivity.
Qed.
Print Assumptions C51_numbering.

(** 12 x (1-x-y) y^2: the polynomial of order 4 with exponents (1, 2) has number 10 *)
Example C51_numbering_case : exists fs f, bernstein_polynomials 4 2 = Ok fs /\ length fs = 15%nat /\ nth_error fs 10 = Some f /\
  forall v, f v = 12 * (1 - v 0%nat - v 1%nat) * v 0%nat * v 1%nat ^ 2.
Proof.
  destruct (proj1 (proj2 (C51_numbering 4)) 1 2 ltac:(lia))%nat as (fs & f & E & H & V). change (Z.to_nat _) with 10%nat in H. exists fs, f. split; [exact E|].
  split; [injection E as <-; reflexivity|]. split; [exact H|]. intros v. rewrite V. unfold bernstein_value. cbn. field.
Qed.

(** * Creation of the element *)
(** C51, creation: on intervals and triangles with any vertices the element exists for every order; on tetrahedra up to order 3. *)
Lemma face_count n : (2 * length (flat_map (fun i => map (fun j => (i, j)) (range2 1 (n - i))) (range2 1 n)) = (n - 1) * (n - 2))%nat.
Proof.
  rewrite length_flat_map_sum. unfold range2. rewrite (map_ext _ (fun i => n - i - 1)%nat) by (intros; rewrite map_length, seq_length; reflexivity).
  assert (Q : forall m s, (s + m = n)%nat -> (2 * list_sum (map (fun i => n - i - 1) (seq s m)) = m * (m - 1))%nat).
  { induction m as [|m IH]; intros s Hs; [reflexivity|]. cbn [seq map list_sum fold_right]. change (fold_right Nat.add 0%nat) with list_sum. specialize (IH (S s) ltac:(lia)). nia. }
  destruct n as [|n]; [reflexivity|]. rewrite Q by lia. nia.
Qed.
Lemma face_list n r fn : length (flat_map (fun i => map (fun j => Functional r (Z.to_nat (index (Z.of_nat n) (Z.of_nat i) (Z.of_nat j) 0)) n (2, fn)%nat) (range2 1 (n - i))) (range2 1 n)) =
  length (flat_map (fun i => map (fun j => (i, j)) (range2 1 (n - i))) (range2 1 n)).
Proof. rewrite !length_flat_map_sum. f_equal. apply map_ext. intros i. rewrite !map_length. reflexivity. Qed.

Lemma tri n : (2 * (n * (n - 1) / 2) = n * (n - 1))%nat.
Proof.
  assert (exists k, n * (n - 1) = k * 2)%nat as [k ->]; [|rewrite Nat.div_mul by lia; lia].
  induction n as [|n [k IH]]; [exists 0%nat; reflexivity|]. exists (k + n)%nat. destruct n; nia.
Qed.
Lemma dof_count c vs r n : simplex c -> make_reference c vs = Ok r -> exists dofs, bernstein_dofs r (S n) = Ok dofs /\
  length dofs = (match c with CInterval => n + 2 | CTriangle => 3 + 3 * n + n * (n - 1) / 2 | _ => 4 + 6 * n + 4 * (n * (n - 1) / 2) end)%nat.
Proof.
  intros Hc Hr.
  assert (Q : (length (flat_map (fun i => map (fun j => (i, j)) (range2 1 (S n - i))) (range2 1 (S n))) = n * (n - 1) / 2)%nat).
  { pose proof (face_count (S n)) as Q. replace (S n - 1)%nat with n in Q by lia. replace (S n - 2)%nat with (n - 1)%nat in Q by lia. rewrite <- Q, Nat.mul_comm, Nat.div_mul by lia. reflexivity. }
  assert (L : forall m, length (range2 1 (S m)) = m) by (intros m; unfold range2; rewrite seq_length; lia).
  destruct Hc as [-> | [-> | ->]].
  all: repeat (destruct vs as [|? vs]; try discriminate Hr); injection Hr as <-; eexists; (split; [reflexivity|]).
  all: cbn [interior_dofs r_type cell_name]; cbn [String.eqb Ascii.eqb Bool.eqb]; rewrite !app_length; cbn [r_vertices enumerate length map].
  all: cbn [concat]; rewrite ?app_length, ?map_length, ?face_list, ?L; cbn [length]; rewrite ?Q.
  all: cbn; lia.
Qed.

Theorem C51_creation_partial c vs r n : simplex c -> make_reference c vs = Ok r -> (c = CTetrahedron -> (n <= 3)%nat) ->
  exists poly dofs, make_bernstein r n = Ok (poly, dofs) /\ length poly = length dofs /\ INR (length dofs) = C (n + tdim c) (tdim c).
Proof.
  intros Hc Hr H3. assert (G : good_dim (tdim c)) by (destruct Hc as [-> | [-> | ->]]; unfold good_dim; simpl; auto).
  assert (T : r_type r = c) by (destruct Hc as [-> | [-> | ->]]; repeat (destruct vs as [|? vs]; try discriminate Hr); injection Hr as <-; reflexivity).
  unfold make_bernstein. rewrite T. destruct (polynomial_set_1d (tdim c) n) as [poly|] eqn:Ep; [|destruct G as [X|[X|X]]; rewrite X in Ep; discriminate Ep]. cbn [rbind].
  pose proof (polyset_binomial _ _ _ G Ep) as B. pose proof (polynomial_set_1d_length _ _ _ Ep) as Lp.
  enough (Q : exists dofs, bernstein_dofs r n = Ok dofs /\ length poly = length dofs).
  { destruct Q as (dofs & E & L). rewrite E. cbn [rbind]. rewrite L, Nat.eqb_refl. exists poly, dofs. rewrite <- L. auto. }
  destruct n as [|n].
  - unfold bernstein_dofs. cbn [Nat.eqb]. eexists. split; [reflexivity|]. cbn [length]. destruct Hc as [-> | [-> | ->]]; simpl in Lp; lia.
  - destruct (dof_count c vs r n Hc Hr) as (dofs & E & L). exists dofs. split; [exact E|]. rewrite L.
    destruct Hc as [-> | [-> | ->]]; cbn [tdim] in Lp.
    + lia.
    + pose proof (tri n) as M.
      nia.
    + specialize (H3 eq_refl). destruct n as [|[|[|n]]]; [simpl in *; lia|simpl in *; lia|simpl in *; lia|lia].
Qed.
Print Assumptions C51_creation_partial.

(** The entity a degree of freedom is associated with, and the degrees of freedom of an entity. *)
Definition dof_entity (d : bernstein_dof) : nat * nat := match d with PointEval _ e => e | Functional _ _ _ e => e end.
Definition dofs_of (e : nat * nat) (dofs : list bernstein_dof) : list bernstein_dof :=
  filter (fun d => ((fst (dof_entity d) =? fst e) && (snd (dof_entity d) =? snd e))%nat) dofs.
Lemma dofs_of_app e l l' : dofs_of e (l ++ l') = dofs_of e l ++ dofs_of e l'.
Proof. unfold dofs_of. induction l as [|d l IH]; [reflexivity|]. cbn [app filter]. destruct (_ && _); [cbn [app]; f_equal|]; exact IH. Qed.
Lemma dofs_of_const {A} e e' (f : A -> bernstein_dof) l : (forall a, dof_entity (f a) = e') ->
  dofs_of e (map f l) = if ((fst e' =? fst e) && (snd e' =? snd e))%nat then map f l else [].
Proof.
  intros H. unfold dofs_of. induction l as [|a l IH]; [destruct (_ && _); reflexivity|]. cbn [map filter]. rewrite H, IH. destruct (_ && _); reflexivity.
Qed.
Lemma dofs_of_face e fn r sub n : dofs_of e (flat_map (fun i => map (fun j => Functional sub (Z.to_nat (index (Z.of_nat n) (Z.of_nat i) (Z.of_nat j) 0)) r (2, fn)%nat) (range2 1 (n - i))) (range2 1 n)) =
  if ((2 =? fst e) && (fn =? snd e))%nat then flat_map (fun i => map (fun j => Functional sub (Z.to_nat (index (Z.of_nat n) (Z.of_nat i) (Z.of_nat j) 0)) r (2, fn)%nat) (range2 1 (n - i))) (range2 1 n) else [].
Proof.
  generalize (range2 1 n). induction l as [|i l IH]; [destruct (_ && _); reflexivity|]. cbn [flat_map]. rewrite dofs_of_app, IH, (dofs_of_const e (2, fn)%nat) by reflexivity.
  cbn [fst snd]. destruct (_ && _); reflexivity.
Qed.

(** The degrees of freedom of each entity: a point evaluation at every vertex, order - 1 functionals on every edge and
    (order - 1)(order - 2)/2 on every face, each an integral over that very entity; for order 0 the evaluation at the
    midpoint, associated with the interior. *)
Theorem C51_entities c vs r : simplex c -> make_reference c vs = Ok r ->
  (bernstein_dofs r 0 = Ok [PointEval (midpoint r) (tdim c, 0%nat)]) /\
  forall n dofs, (1 <= n)%nat -> bernstein_dofs r n = Ok dofs ->
  (forall k, (k < length vs)%nat -> dofs_of (0, k)%nat dofs = [PointEval (nth k vs []) (0, k)%nat]) /\
  (forall k, (k < length (edges c))%nat -> length (dofs_of (1, k)%nat dofs) = (n - 1)%nat /\
     forall d, In d (dofs_of (1, k)%nat dofs) -> exists s i, sub_entity r 1 k false = Ok s /\ (1 <= i < n)%nat /\ d = Functional s i n (1, k)%nat) /\
  (forall k, (k < length (faces c))%nat -> (2 * length (dofs_of (2, k)%nat dofs) = (n - 1) * (n - 2))%nat /\
     forall d, In d (dofs_of (2, k)%nat dofs) -> exists s i, sub_entity r 2 k false = Ok s /\ d = Functional s i n (2, k)%nat).
Proof.
  intros Hc Hr. assert (T : r_type r = c /\ r_vertices r = vs) by (destruct Hc as [-> | [-> | ->]]; repeat (destruct vs as [|? vs]; try discriminate Hr); injection Hr as <-; split; reflexivity).
  destruct T as [T TV]. split; [unfold bernstein_dofs; cbn [Nat.eqb]; rewrite T; reflexivity|].
  intros n dofs Hn Hd. destruct n as [|n]; [lia|].
  assert (F1 : forall s k d, In d (map (fun i => Functional s i (S n) (1, k)%nat) (range2 1 (S n))) -> exists i, (1 <= i < S n)%nat /\ d = Functional s i (S n) (1, k)%nat).
  { intros s k d I. apply in_map_iff in I. destruct I as (i & <- & I). unfold range2 in I. apply in_seq in I. exists i. split; [lia|reflexivity]. }
  assert (F2 : forall s k d, In d (flat_map (fun i => map (fun j => Functional s (Z.to_nat (index (Z.of_nat (S n)) (Z.of_nat i) (Z.of_nat j) 0)) (S n) (2, k)%nat) (range2 1 (S n - i))) (range2 1 (S n))) -> exists i, d = Functional s i (S n) (2, k)%nat).
  { intros s k d I. apply in_flat_map in I. destruct I as (i & _ & I). apply in_map_iff in I. destruct I as (j & <- & _). eauto. }
  assert (L1 : forall s k, length (map (fun i => Functional s i (S n) (1, k)%nat) (range2 1 (S n))) = (S n - 1)%nat) by (intros s k; rewrite map_length; unfold range2; rewrite seq_length; lia).
  assert (L2 : forall s k, (2 * length (flat_map (fun i => map (fun j => Functional s (Z.to_nat (index (Z.of_nat (S n)) (Z.of_nat i) (Z.of_nat j) 0)) (S n) (2, k)%nat) (range2 1 (S n - i))) (range2 1 (S n))) = (S n - 1) * (S n - 2))%nat).
  { intros s k. rewrite face_list. apply face_count. }
  assert (D1 : forall e s k, dofs_of e (map (fun i => Functional s i (S n) (1, k)%nat) (range2 1 (S n))) = if ((1 =? fst e) && (k =? snd e))%nat then map (fun i => Functional s i (S n) (1, k)%nat) (range2 1 (S n)) else []).
  { intros e s k. apply (dofs_of_const e (1, k)%nat). reflexivity. }
  assert (D2 := fun e fn s => dofs_of_face e fn (S n) s (S n)).
  set (G1 := fun s k => map (fun i => Functional s i (S n) (1, k)%nat) (range2 1 (S n))) in *.
  set (G2 := fun s k => flat_map (fun i => map (fun j => Functional s (Z.to_nat (index (Z.of_nat (S n)) (Z.of_nat i) (Z.of_nat j) 0)) (S n) (2, k)%nat) (range2 1 (S n - i))) (range2 1 (S n))) in *.
  assert (E1 : edge_dofs r (S n) = rmap (@concat _) (map_r (fun en => rmap (fun sub => G1 sub en) (sub_entity r 1 en false)) (range (length (edges (r_type r)))))) by reflexivity.
  assert (E2 : face_dofs r (S n) = rmap (@concat _) (map_r (fun en => rmap (fun sub => G2 sub en) (sub_entity r 2 en false)) (range (length (faces (r_type r)))))) by reflexivity.
  change (forall s k d, In d (G1 s k) -> exists i, (1 <= i < S n)%nat /\ d = Functional s i (S n) (1, k)%nat) in F1.
  change (forall s k d, In d (G2 s k) -> exists i, d = Functional s i (S n) (2, k)%nat) in F2.
  change (forall s k, length (G1 s k) = (S n - 1)%nat) in L1. change (forall s k, (2 * length (G2 s k) = (S n - 1) * (S n - 2))%nat) in L2.
  change (forall e s k, dofs_of e (G1 s k) = if ((1 =? fst e) && (k =? snd e))%nat then G1 s k else []) in D1.
  change (forall e k s, dofs_of e (G2 s k) = if ((2 =? fst e) && (k =? snd e))%nat then G2 s k else []) in D2.
  assert (I0 : interior_dofs r (S n) = []) by (unfold interior_dofs; rewrite T; destruct Hc as [-> | [-> | ->]]; reflexivity).
  unfold bernstein_dofs in Hd. change (S n =? 0)%nat with false in Hd. cbn match in Hd. rewrite E1, E2, I0 in Hd. clear E1 E2 I0. clearbody G1 G2.
  remember (S n) as m eqn:Em. clear Em Hn.
  destruct Hc as [-> | [-> | ->]]; repeat (destruct vs as [|? vs]; try discriminate Hr); injection Hr as <-; cbn in Hd; injection Hd as <-; clear T TV.
  all: (split; [|split]; intros k Hk; simpl in Hk;
    repeat (destruct k as [|k]; [|try (exfalso; lia)]); try (exfalso; lia)).
  all: repeat first [rewrite dofs_of_app | rewrite D1 | rewrite D2 |
     match goal with |- context [dofs_of ?e (PointEval ?p ?e' :: ?l)] => change (dofs_of e (PointEval p e' :: l)) with (if ((fst e' =? fst e) && (snd e' =? snd e))%nat then PointEval p e' :: dofs_of e l else dofs_of e l) end
     | progress cbn [fst snd Nat.eqb andb app]].
  all: cbn [dofs_of filter]; rewrite ?app_nil_r.
  all: try reflexivity.
  all: try (split; [apply L1|]; intros d I; destruct (F1 _ _ _ I) as (i & Hi & ->); do 2 eexists; split; [reflexivity|]; split; [exact Hi|reflexivity]).
  all: try (split; [apply L2|]; intros d I; destruct (F2 _ _ _ I) as (i & ->); do 2 eexists; split; reflexivity).
Qed.
Print Assumptions C51_entities.
Example C51_entities_case : exists dofs, bernstein_dofs (default CTriangle) 4 = Ok dofs /\
  length (dofs_of (1, 2)%nat dofs) = 3%nat /\ length (dofs_of (2, 0)%nat dofs) = 3%nat.
Proof. eexists. split; [reflexivity|]. split; reflexivity. Qed.

(** Fails for tetrahedra: because of a misspelt cell name (bernstein.py:222) the interior degrees of freedom
    are missing, and the element cannot be created for any order >= 4. *)
Theorem C51_creation_refuted : exists c, simplex c /\ forall vs r n, make_reference c vs = Ok r -> (4 <= n)%nat -> make_bernstein r n = Err AssertionError.
Proof.
  exists CTetrahedron. split; [right; right; reflexivity|]. intros vs r n Hr Hn. destruct n as [|n]; [lia|].
  destruct (dof_count CTetrahedron vs r n ltac:(right; right; reflexivity) Hr) as (dofs & E & L).
  assert (T : r_type r = CTetrahedron) by (repeat (destruct vs as [|? vs]; try discriminate Hr); injection Hr as <-; reflexivity).
  unfold make_bernstein. rewrite T. cbn [tdim]. destruct (polynomial_set_1d 3 (S n)) as [poly|] eqn:Ep; [|discriminate Ep]. cbn [rbind]. rewrite E. cbn [rbind].
  pose proof (polynomial_set_1d_length _ _ _ Ep) as Lp. cbn in Lp.
  pose proof (tri n) as M.
  destruct (Nat.eqb_spec (length poly) (length dofs)) as [X|X]; [|reflexivity]. exfalso. rewrite X, L in Lp.
  destruct n as [|[|[|n]]]; [lia|lia|lia|]. nia.
Qed.
Print Assumptions C51_creation_refuted.
(** the default tetrahedron meets the hypotheses; order 5 misses four functions *)
Example C51_creation_case : (exists r, make_reference CTetrahedron (reference_vertices CTetrahedron) = Ok r /\ make_bernstein r 5 = Err AssertionError /\
   exists poly dofs, polynomial_set_1d 3 5 = Ok poly /\ bernstein_dofs r 5 = Ok dofs /\ length poly = 56%nat /\ length dofs = 52%nat) /\
  exists poly dofs, make_bernstein (default CTriangle) 5 = Ok (poly, dofs) /\ length dofs = 21%nat.
Proof.
  split; [eexists; split; [reflexivity|]; split; [reflexivity|]; do 2 eexists; repeat split|]. do 2 eexists. split; reflexivity.
Qed.
