(** Proofs about the Piola-type mappings, and their specification vocabulary. *)
From Coquelicot Require Import Coquelicot.
From Coq Require Import String Reals ZArith Arith Bool Lia Lra List.
From Verif Require Import Base LinAlg FunctionsModel FunctionsSpec FunctionsProofs FunctionsArith FunctionsSubs MappingsModel.
Import ListNotations.
Local Open Scope R_scope.

(** * Specification vocabulary *)
(** the i-th coordinate symbol *)
Definition xs (i : nat) : sym := nth i x_symbols EmptyString.
(** [m] is an affine map of n coordinates, with matrix A and translation b *)
Definition affine (n : nat) (m : list expr) (A : nat -> nat -> R) (b : nat -> R) : Prop :=
  length m = n /\ forall i, (i < n)%nat -> forall p, smooth p (nth i m (ENum 0)) /\
    ev p (nth i m (ENum 0)) = sum n (fun j => A i j * p (xs j)) + b i.
(** the point p moved by the map: the coordinates become the values of the map at p *)
Definition at_map (m : list expr) (p : env) : env := assign x_symbols (map (ev p) m) p.
(** the two maps undo each other *)
Definition inverse_maps (n : nat) (m mi : list expr) : Prop :=
  forall p i, (i < n)%nat -> ev (at_map m p) (nth i mi (ENum 0)) = p (xs i) /\
                             ev (at_map mi p) (nth i m (ENum 0)) = p (xs i).
(** values of a function do not depend on the reserved symbols DUMMY_0, DUMMY_1, ... *)
Definition agree (p q : env) : Prop := forall s, (forall i, s <> dummy i) -> p s = q s.
Definition no_reserved (f : func) : Prop := forall p q, agree p q -> value_at p f = value_at q f.
(** scalar functions, vector functions with n components, n x n matrix functions *)
Definition is_scalar_fn (f : func) : Prop := exists e, f = FS e.
Definition is_vector_fn (n : nat) (f : func) : Prop := exists v, f = FV v /\ length v = n.
Definition is_matrix_fn (n : nat) (f : func) : Prop :=
  exists m, f = FM m /\ length m = n /\ forall r, In r m -> length r = n.
(** their values and components *)
Definition scalar_val (p : env) (f : func) : R := match f with FS e => ev p e | _ => 0 end.
Definition comp (p : env) (f : func) (i : nat) : R := match f with FV v => nth i (map (ev p) v) 0 | _ => 0 end.
Definition comp2 (p : env) (f : func) (i j : nat) : R :=
  match f with FM m => nth j (nth i (map (map (ev p)) m) []) 0 | _ => 0 end.
(** determinants up to size 3 *)
Definition det (n : nat) (A : nat -> nat -> R) : R :=
  match n with
  | 0%nat => 1
  | 1%nat => A 0%nat 0%nat
  | 2%nat => A 0%nat 0%nat * A 1%nat 1%nat - A 0%nat 1%nat * A 1%nat 0%nat
  | _ => A 0%nat 0%nat * (A 1%nat 1%nat * A 2%nat 2%nat - A 1%nat 2%nat * A 2%nat 1%nat)
         - A 0%nat 1%nat * (A 1%nat 0%nat * A 2%nat 2%nat - A 1%nat 2%nat * A 2%nat 0%nat)
         + A 0%nat 2%nat * (A 1%nat 0%nat * A 2%nat 1%nat - A 1%nat 1%nat * A 2%nat 0%nat)
  end.
(** inner products and matrix-vector products *)
Definition dot (n : nat) (u v : nat -> R) : R := sum n (fun i => u i * v i).
Definition app_mat (n : nat) (A : nat -> nat -> R) (v : nat -> R) (i : nat) : R := sum n (fun j => A i j * v j).
Definition transp (A : nat -> nat -> R) (i j : nat) : R := A j i.

(** * Determinants *)
Lemma det_mul n A B : (n <= 3)%nat -> det n (mmul n A B) = det n A * det n B.
Proof.
  intros Hn. destruct n as [|[|[|[|n]]]]; [| | | |lia]; unfold det, mmul, sum; ring.
Qed.
Lemma det_transp n A : (n <= 3)%nat -> det n (transp A) = det n A.
Proof. intros Hn. destruct n as [|[|[|[|n]]]]; [| | | |lia]; unfold det, transp; ring. Qed.
Lemma det_ext n A B : (n <= 3)%nat -> (forall i j, (i < n)%nat -> (j < n)%nat -> A i j = B i j) -> det n A = det n B.
Proof. intros Hn H. destruct n as [|[|[|[|n]]]]; [| | | |lia]; unfold det; rewrite ?H by lia; reflexivity. Qed.
Lemma det_id n : (n <= 3)%nat -> det n delta = 1.
Proof. intros Hn. destruct n as [|[|[|[|n]]]]; [| | | |lia]; unfold det, delta; simpl; ring. Qed.
Lemma det_inverse n A B : (n <= 3)%nat -> is_identity n (mmul n A B) -> det n A * det n B = 1.
Proof.
  intros Hn H. rewrite <- det_mul, <- (det_id n) by exact Hn. apply det_ext; [exact Hn|exact H].
Qed.

(** * Tables *)
Definition tab {T} (n : nat) (f : nat -> T) : list T := map f (range n).
Lemma length_tab {T} n (f : nat -> T) : length (tab n f) = n.
Proof. unfold tab. rewrite map_length. apply length_range. Qed.
Lemma nth_tab {T} n (f : nat -> T) i d : (i < n)%nat -> nth i (tab n f) d = f i.
Proof.
  intros H. unfold tab. rewrite (nth_indep _ d (f O)) by (rewrite map_length, length_range; exact H).
  rewrite map_nth. unfold range. rewrite seq_nth by exact H. reflexivity.
Qed.
Lemma tab_ext {T} n (f g : nat -> T) : (forall i, (i < n)%nat -> f i = g i) -> tab n f = tab n g.
Proof. intros H. apply map_ext_in. intros i Hi. apply H, in_range, Hi. Qed.
Lemma map_tab {T U} (h : T -> U) n f : map h (tab n f) = tab n (fun i => h (f i)).
Proof. unfold tab. rewrite map_map. reflexivity. Qed.
Lemma tab_S {T} n (f : nat -> T) : tab (S n) f = f O :: tab n (fun i => f (S i)).
Proof. unfold tab, range. simpl. f_equal. rewrite <- seq_shift, map_map. reflexivity. Qed.
Lemma tab_nth {T} (l : list T) d : l = tab (length l) (fun i => nth i l d).
Proof.
  induction l as [|a l IH]; [reflexivity|]. simpl length. rewrite tab_S. simpl. f_equal. exact IH.
Qed.
Lemma inner_tab n u v : inner (tab n u) (tab n v) = sum n (fun i => u i * v i).
Proof.
  revert u v. induction n as [|n IH]; intros u v; [reflexivity|].
  rewrite !tab_S. unfold inner. simpl combine. simpl map. simpl fold_right.
  change (u O * v O + inner (tab n (fun i => u (S i))) (tab n (fun i => v (S i))) = sum (S n) (fun i => u i * v i)).
  rewrite IH, (sum_skip n 0) by lia. reflexivity.
Qed.
Lemma column_tab n A j : (j < n)%nat -> column (tab n (fun i => tab n (A i))) j = tab n (fun i => A i j).
Proof. intros Hj. unfold column. rewrite map_tab. apply tab_ext. intros i _. apply nth_tab. exact Hj. Qed.
Definition mtab (n : nat) (A : nat -> nat -> R) : list (list R) := tab n (fun i => tab n (A i)).

(** * Functions with known values *)
Definition sden (f : func) (s : env -> R) : Prop := exists e, f = FS e /\ forall p, ev p e = s p.
Definition vden (n : nat) (f : func) (u : env -> nat -> R) : Prop :=
  exists v, f = FV v /\ forall p, map (ev p) v = tab n (u p).
Definition mden (n : nat) (f : func) (A : env -> nat -> nat -> R) : Prop :=
  exists m, f = FM m /\ forall p, map (map (ev p)) m = mtab n (A p).
Definition p0 : env := fun _ => 0.

Lemma mden_shape n m A : mden n (FM m) A -> length m = n /\ (forall r, In r m -> length r = n) /\ rectangular m.
Proof.
  intros (m' & E & H). injection E as <-. specialize (H p0).
  assert (L : length m = n).
  { rewrite <- (map_length (map (ev p0))), H. apply length_tab. }
  assert (Rw : forall r, In r m -> length r = n).
  { intros r Hr. rewrite <- (map_length (ev p0)).
    assert (Hin : In (map (ev p0) r) (mtab n (A p0))) by (rewrite <- H; apply in_map; exact Hr).
    unfold mtab, tab at 1 in Hin. apply in_map_iff in Hin. destruct Hin as (i & <- & _). apply length_tab. }
  split; [exact L|]. split; [exact Rw|]. apply (rect_intro m n Rw).
Qed.
Lemma mden_cols n m A : (0 < n)%nat -> mden n (FM m) A -> snd (mat_shape m) = n.
Proof.
  intros Hn H. destruct (mden_shape n m A H) as (L & Rw & _). destruct m as [|r m]; [simpl in L; lia|].
  simpl. apply Rw. left. reflexivity.
Qed.
Lemma vden_length n v u : vden n (FV v) u -> length v = n.
Proof. intros (v' & E & H). injection E as <-. rewrite <- (map_length (ev p0)), H. apply length_tab. Qed.

Lemma matmul_vector n f g A u : (0 < n)%nat -> mden n f A -> vden n g u ->
  exists r, matmul f g = Ok r /\ vden n r (fun p => app_mat n (A p) (u p)).
Proof.
  intros Hn Hf Hg. pose proof Hf as (m & -> & Hm). pose proof Hg as (v & -> & Hv).
  destruct (mden_shape n m A Hf) as (L & Rw & Rc). pose proof (mden_cols n m A Hn Hf) as C.
  pose proof (vden_length n v u Hg) as Lv. unfold matmul.
  destruct (mat_vec_value p0 m v Rc ltac:(lia)) as (h & E & _). rewrite E. simpl. eexists. split; [reflexivity|].
  exists h. split; [reflexivity|]. intros p.
  destruct (mat_vec_value p m v Rc ltac:(lia)) as (h' & E' & Hh & _).
  assert (EE : Ok (PFun (FV h)) = Ok (PFun (FV h'))) by congruence. injection EE as <-.
  rewrite Hh, Hm, Hv. unfold mtab. rewrite map_tab. apply tab_ext. intros i _. apply inner_tab.
Qed.
Lemma matmul_matrix n f g A B : (0 < n)%nat -> mden n f A -> mden n g B ->
  exists r, matmul f g = Ok r /\ mden n r (fun p => mmul n (A p) (B p)).
Proof.
  intros Hn Hf Hg. pose proof Hf as (m & -> & Hm). pose proof Hg as (m' & -> & Hm').
  destruct (mden_shape n m A Hf) as (L & Rw & Rc). pose proof (mden_cols n m A Hn Hf) as C.
  destruct (mden_shape n m' B Hg) as (L' & Rw' & Rc'). pose proof (mden_cols n m' B Hn Hg) as C'. unfold matmul.
  destruct (mat_mat_product p0 m m' Rc Rc' ltac:(simpl fst; lia)) as (h & E & _). rewrite E. simpl. eexists. split; [reflexivity|].
  exists h. split; [reflexivity|]. intros p.
  destruct (mat_mat_product p m m' Rc Rc' ltac:(simpl fst; lia)) as (h' & E' & Hh & _).
  assert (EE : Ok (PFun (FM h)) = Ok (PFun (FM h'))) by congruence. injection EE as <-.
  rewrite Hh, Hm, ncols_map, C'. unfold mtab. rewrite map_tab. apply tab_ext. intros i _.
  change (seq 0 n) with (range n). apply map_ext_in. intros j Hj. apply in_range in Hj.
  rewrite Hm'. unfold mtab. rewrite column_tab by exact Hj. apply inner_tab.
Qed.
Lemma transpose_matrix n f A : (0 < n)%nat -> mden n f A ->
  exists r, transpose_of f = Ok r /\ mden n r (fun p => transp (A p)).
Proof.
  intros Hn Hf. pose proof Hf as (m & -> & Hm). destruct (mden_shape n m A Hf) as (L & Rw & Rc).
  pose proof (mden_cols n m A Hn Hf) as C. simpl. unfold f_transpose. rewrite C.
  rewrite (map_res_all _ (ecol m)); [|intros j Hj; apply in_range in Hj; apply mat_col_value; [exact Rc|lia]]. simpl.
  rewrite mk_mat_ok.
  - eexists. split; [reflexivity|]. eexists. split; [reflexivity|]. intros p. unfold mtab, tab at 1. rewrite map_map.
    apply map_ext_in. intros j Hj. apply in_range in Hj. rewrite ecol_value, Hm. unfold mtab. apply column_tab. exact Hj.
  - apply (rect_intro _ n). intros r Hr. apply in_map_iff in Hr. destruct Hr as (j & <- & _). rewrite length_ecol. exact L.
Qed.
Lemma det_matrix n f A : (0 < n <= 3)%nat -> mden n f A ->
  exists d, det_of f = Ok (FS d) /\ forall p, ev p d = det n (A p).
Proof.
  intros Hn Hf. pose proof Hf as (m & -> & Hm). destruct (mden_shape n m A Hf) as (L & Rw & Rc).
  pose proof (mden_cols n m A ltac:(lia) Hf) as C. simpl. unfold f_det. simpl fst. rewrite C, L, Nat.eqb_refl.
  eexists. split; [reflexivity|]. intros p. specialize (Hm p).
  destruct n as [|[|[|[|n]]]]; [lia| | | |lia].
  - destruct m as [|[|a r] [|? ?]]; try discriminate L; [specialize (Rw [] (or_introl eq_refl)); discriminate|].
    destruct r; [|specialize (Rw _ (or_introl eq_refl)); discriminate].
    unfold mtab, tab, range in Hm. simpl in Hm. injection Hm as E1. simpl. rewrite E1. ring.
  - destruct m as [|r1 [|r2 [|? ?]]]; try discriminate L.
    assert (L1 := Rw r1 (or_introl eq_refl)). assert (L2 := Rw r2 (or_intror (or_introl eq_refl))).
    destruct r1 as [|a [|b [|? ?]]]; try discriminate. destruct r2 as [|c [|d [|? ?]]]; try discriminate.
    unfold mtab, tab, range in Hm. simpl in Hm. injection Hm as E1 E2 E3 E4. simpl. rewrite E1, E2, E3, E4. ring.
  - destruct m as [|r1 [|r2 [|r3 [|? ?]]]]; try discriminate L.
    assert (L1 := Rw r1 (or_introl eq_refl)). assert (L2 := Rw r2 (or_intror (or_introl eq_refl))).
    assert (L3 := Rw r3 (or_intror (or_intror (or_introl eq_refl)))).
    destruct r1 as [|a [|b [|c [|? ?]]]]; try discriminate. destruct r2 as [|d [|e [|g [|? ?]]]]; try discriminate.
    destruct r3 as [|h [|k [|l [|? ?]]]]; try discriminate.
    unfold mtab, tab, range in Hm. simpl in Hm. injection Hm as E1 E2 E3 E4 E5 E6 E7 E8 E9. simpl.
    rewrite E1, E2, E3, E4, E5, E6, E7, E8, E9. ring.
Qed.
Lemma div_matrix n f A d s : mden n f A -> (forall p, ev p d = s p) ->
  exists r, div_by f (PFun (FS d)) = Ok r /\ mden n r (fun p i j => A p i j / s p).
Proof.
  intros Hf Hd. pose proof Hf as (m & -> & Hm). destruct (mden_shape n m A Hf) as (L & Rw & Rc).
  unfold div_by. simpl. rewrite mk_mat_ok by (apply rect_map_map; exact Rc). simpl. eexists. split; [reflexivity|].
  eexists. split; [reflexivity|]. intros p. rewrite map_map.
  transitivity (map (map (fun a => a / s p)) (mtab n (A p))).
  - rewrite <- (Hm p), map_map. apply map_ext. intros r. rewrite !map_map. apply map_ext. intros e. simpl. rewrite Hd. reflexivity.
  - unfold mtab. rewrite map_tab. apply tab_ext. intros i _. apply map_tab.
Qed.

(** * Affine maps *)
Lemma xs_lt3 i : (i < 3)%nat -> nth_error x_symbols i = Some (xs i).
Proof. intros H. destruct i as [|[|[|i]]]; [reflexivity|reflexivity|reflexivity|lia]. Qed.
Lemma xs_neq i j : (i < 3)%nat -> (j < 3)%nat -> i <> j -> xs i <> xs j.
Proof. intros Hi Hj H. destruct i as [|[|[|i]]], j as [|[|[|j]]]; try lia; discriminate. Qed.
Lemma xs_not_dummy i k : (i < 3)%nat -> xs i <> dummy k.
Proof. intros Hi. destruct i as [|[|[|i]]]; try lia; unfold dummy; discriminate. Qed.

Lemma derivative_value n m A b i j p : (n <= 3)%nat -> affine n m A b -> (i < n)%nat -> (j < n)%nat ->
  ev p (ediff (xs j) (nth i m (ENum 0))) = A i j.
Proof.
  intros Hn [L H] Hi Hj. destruct (H i Hi p) as [Sm _].
  pose proof (ediff_correct p (xs j) _ Sm) as D. unfold partial in D.
  apply is_derive_unique in D. rewrite <- D. apply is_derive_unique.
  apply (is_derive_ext (fun h => A i j * h + (sum n (fun k => if Nat.eq_dec k j then 0 else A i k * p (xs k)) + b i))).
  - intros h. rewrite (proj2 (H i Hi (upd p (xs j) h))).
    rewrite (sum_ext n (fun k => A i k * upd p (xs j) h (xs k))
               (fun k => (if Nat.eq_dec k j then 0 else A i k * p (xs k)) + A i k * h * delta k j)).
    + rewrite sum_plus. rewrite (sum_delta n j (fun k => A i k * h) Hj).
      match goal with |- @eq _ ?a ?c => change (@eq R a c) end. ring.
    + intros k Hk. unfold delta. destruct (Nat.eq_dec k j) as [->|Hkj].
      * rewrite upd_same. ring.
      * rewrite upd_other by (apply xs_neq; lia). ring.
  - auto_derive; [exact I|ring].
Qed.
Lemma map_nth_tab {T U} (h : T -> U) (m : list T) n d : length m = n -> map h m = tab n (fun i => h (nth i m d)).
Proof. intros <-. rewrite (tab_nth m d) at 1. apply map_tab. Qed.

Lemma jacobian_ok n m A b : (0 < n <= 3)%nat -> affine n m A b -> exists J, jacobian m n = Ok J /\ mden n J (fun _ => A).
Proof.
  intros Hn Ha. pose proof (proj1 Ha) as L. unfold jacobian.
  rewrite (map_res_all _ (fun e => tab n (fun j => ediff (xs j) e))).
  2:{ intros e _. apply map_res_all. intros j Hj. apply in_range in Hj. unfold x_at. rewrite xs_lt3 by lia. reflexivity. }
  simpl. rewrite mk_mat_ok.
  - eexists. split; [reflexivity|]. eexists. split; [reflexivity|]. intros p. rewrite map_map.
    rewrite (map_nth_tab _ m n (ENum 0) L). apply tab_ext. intros i Hi. rewrite map_tab. apply tab_ext. intros j Hj.
    apply (derivative_value n m A b); [lia|exact Ha|exact Hi|exact Hj].
  - apply (rect_intro _ n). intros r Hr. apply in_map_iff in Hr. destruct Hr as (e & <- & _). apply length_tab.
Qed.
Lemma j_inv_ok n m A b : (0 < n <= 3)%nat -> affine n m A b -> exists J, j_inv_of m n = Ok J /\ mden n J (fun _ => transp A).
Proof.
  intros Hn Ha. pose proof (proj1 Ha) as L. unfold j_inv_of.
  rewrite (map_res_all _ (fun j => map (ediff (xs j)) m)).
  2:{ intros j Hj. apply in_range in Hj. unfold x_at. rewrite xs_lt3 by lia. reflexivity. }
  simpl. rewrite mk_mat_ok.
  - eexists. split; [reflexivity|]. eexists. split; [reflexivity|]. intros p. rewrite map_map. apply map_ext_in.
    intros j Hj. apply in_range in Hj. rewrite map_map, (map_nth_tab _ m n (ENum 0) L). apply tab_ext. intros i Hi.
    unfold transp. apply (derivative_value n m A b); [lia|exact Ha|exact Hi|exact Hj].
  - apply (rect_intro _ n). intros r Hr. apply in_map_iff in Hr. destruct Hr as (j & <- & _). rewrite map_length. exact L.
Qed.

(** * Substitution *)
Definition indep (e : expr) : Prop := forall p q, agree p q -> ev p e = ev q e.
Lemma agree_refl p : agree p p. Proof. intros s _. reflexivity. Qed.
Lemma agree_sym p q : agree p q -> agree q p. Proof. intros H s Hs. symmetry. apply H. exact Hs. Qed.

Lemma affine_indep n m A b : (n <= 3)%nat -> affine n m A b -> Forall indep m.
Proof.
  intros Hn [L H]. apply Forall_forall. intros e He. apply (In_nth _ _ (ENum 0)) in He. destruct He as (i & Hi & <-).
  rewrite L in Hi. intros p q Hpq. rewrite (proj2 (H i Hi p)), (proj2 (H i Hi q)). f_equal. apply sum_ext. intros j Hj.
  rewrite (Hpq (xs j)); [reflexivity|]. intros k. apply xs_not_dummy. lia.
Qed.

Lemma assign_dummies_agree : forall cs k p, agree (assign (map dummy (seq k (length cs))) cs p) p.
Proof.
  intros cs k p s Hs. apply assign_other. intros Hin. apply in_map_iff in Hin. destruct Hin as (i & <- & _). apply (Hs i). reflexivity.
Qed.
Lemma fold_values_indep p vs : forall k e, Forall indep vs ->
  ev p (fold_left (fun e c => esubs (fst c) (snd c) e) (zip (map dummy (seq k (length vs))) vs) e) =
  ev (assign (map dummy (seq k (length vs))) (map (ev p) vs) p) e.
Proof.
  induction vs as [|v vs IH]; intros k e Hv; [reflexivity|]. inversion_clear Hv as [|? ? Hv1 Hv2]. simpl.
  rewrite IH by exact Hv2. rewrite ev_esubs.
  rewrite (Hv1 _ p); [reflexivity|]. rewrite <- (map_length (ev p) vs). apply assign_dummies_agree.
Qed.
Lemma assign_agree vs cs p q : agree p q -> agree (assign vs cs p) (assign vs cs q).
Proof. intros H s Hs. apply assign_base_ext, H, Hs. Qed.

Lemma subs_value p f m : indep f -> Forall indep m ->
  exists h, subs_expr f (VarList x_symbols) (PSeq (map PExpr m)) = Ok h /\ ev p h = ev (at_map m p) f.
Proof.
  intros Hf Hm.
  assert (E : map_res as_expr (map PExpr m) = Ok m).
  { clear. induction m as [|a m IH]; [reflexivity|]. simpl. rewrite IH. reflexivity. }
  unfold subs_expr. cbn [as_sympy]. rewrite E, map_length. cbn [rbind]. eexists. split; [reflexivity|].
  unfold range. rewrite (fold_values_indep p m 0 _ Hm).
  set (q := assign (map dummy (seq 0 (length m))) (map (ev p) m) p).
  rewrite (fold_vars q x_symbols 0 (length m) f).
  2:{ intros v i Hv. apply (In_nth _ _ EmptyString) in Hv. destruct Hv as (k & Hk & <-). apply xs_not_dummy. exact Hk. }
  replace (map q (map dummy (seq 0 (length m)))) with (map (ev p) m).
  - apply Hf. apply assign_agree. unfold q. rewrite <- (map_length (ev p) m). apply assign_dummies_agree.
  - symmetry. unfold q. rewrite <- (map_length (ev p) m) at 1 2. apply assign_dummies.
Qed.
Lemma no_reserved_components f : wf (PFun f) -> no_reserved f -> forall e, In e (components f) -> indep e.
Proof.
  intros Hw H e He p q Hpq. specialize (H p q Hpq). destruct f as [f|v|m]; simpl in *.
  - destruct He as [<-|[]]. congruence.
  - injection H as H. apply (In_nth _ _ e) in He. destruct He as (i & Hi & E).
    apply (f_equal (fun l => nth i l (ev p e))) in H. rewrite (nth_indep (map (ev q) v) _ (ev q e)) in H by (rewrite map_length; exact Hi).
    rewrite !map_nth, E in H. exact H.
  - injection H as H. apply in_concat in He. destruct He as (r & Hr & He).
    apply (In_nth _ _ r) in Hr. destruct Hr as (i & Hi & Er).
    apply (f_equal (fun l => nth i l (map (ev p) r))) in H.
    rewrite (nth_indep (map (map (ev q)) m) _ (map (ev q) r)) in H by (rewrite map_length; exact Hi).
    rewrite !(map_nth (map (ev _))), Er in H.
    apply (In_nth _ _ e) in He. destruct He as (j & Hj & E).
    apply (f_equal (fun l => nth j l (ev p e))) in H. rewrite (nth_indep (map (ev q) r) _ (ev q e)) in H by (rewrite map_length; exact Hj).
    rewrite !map_nth, E in H. exact H.
Qed.
Lemma at_map_agree m p q : Forall indep m -> agree p q -> agree (at_map m p) (at_map m q).
Proof.
  intros Hm H s Hs. unfold at_map. replace (map (ev q) m) with (map (ev p) m).
  - apply assign_agree; assumption.
  - apply map_ext_in. intros e He. rewrite Forall_forall in Hm. apply Hm; assumption.
Qed.
Lemma substituted_ok f m : wf (PFun f) -> no_reserved f -> Forall indep m ->
  exists h, substituted true f m = Ok h /\ (forall p, value_at p h = value_at (at_map m p) f).
Proof.
  intros Hw Hf Hm. unfold substituted.
  destruct (f_subs_values f (VarList x_symbols) (PSeq (map PExpr m)) p0 (at_map m p0) Hw) as (h & E & _).
  { intros e He. apply subs_value; [apply (no_reserved_components f Hw Hf e He)|exact Hm]. }
  exists h. split; [exact E|]. intros p.
  destruct (f_subs_values f (VarList x_symbols) (PSeq (map PExpr m)) p (at_map m p) Hw) as (h' & E' & H').
  { intros e He. apply subs_value; [apply (no_reserved_components f Hw Hf e He)|exact Hm]. }
  replace h with h' by congruence. exact H'.
Qed.

(** value of a function as a table *)
Lemma vden_of n f : is_vector_fn n f -> vden n f (fun p => comp p f).
Proof.
  intros (v & -> & L). exists v. split; [reflexivity|]. intros p. simpl.
  rewrite <- L, <- (map_length (ev p) v). apply tab_nth.
Qed.
Lemma mden_of n f : is_matrix_fn n f -> mden n f (fun p => comp2 p f).
Proof.
  intros (m & -> & L & Rw). exists m. split; [reflexivity|]. intros p. simpl. unfold mtab.
  rewrite (map_nth_tab (map (ev p)) m n [] L). apply tab_ext. intros i Hi. unfold comp2.
  rewrite (nth_indep _ [] (map (ev p) [])) by (rewrite map_length, L; exact Hi). rewrite map_nth.
  assert (Lr : length (nth i m []) = n) by (apply Rw, nth_In; rewrite L; exact Hi).
  rewrite <- Lr, <- (map_length (ev p) (nth i m [])) at 1. apply tab_nth.
Qed.
Lemma vden_comp n f u p i : vden n f u -> (i < n)%nat -> comp p f i = u p i.
Proof. intros (v & -> & H) Hi. simpl. rewrite H. apply nth_tab. exact Hi. Qed.
Lemma mden_comp2 n f A p i j : mden n f A -> (i < n)%nat -> (j < n)%nat -> comp2 p f i j = A p i j.
Proof. intros (m & -> & H) Hi Hj. simpl. rewrite H. unfold mtab. rewrite (nth_tab n _ i) by exact Hi. apply nth_tab. exact Hj. Qed.
Lemma vden_is n f u : vden n f u -> is_vector_fn n f.
Proof. intros H. pose proof H as (v & -> & _). exists v. split; [reflexivity|exact (vden_length n v u H)]. Qed.
Lemma mden_is n f A : mden n f A -> is_matrix_fn n f.
Proof. intros H. pose proof H as (m & -> & _). destruct (mden_shape n m A H) as (L & Rw & _). exists m. auto. Qed.
Lemma vden_value n f u p : vden n f u -> value_at p f = VV (tab n (u p)).
Proof. intros (v & -> & H). simpl. rewrite H. reflexivity. Qed.
Lemma mden_value n f A p : mden n f A -> value_at p f = VM (mtab n (A p)).
Proof. intros (m & -> & H). simpl. rewrite H. reflexivity. Qed.
Lemma vden_ext n f u u' : vden n f u -> (forall p i, (i < n)%nat -> u p i = u' p i) -> vden n f u'.
Proof. intros (v & -> & H) E. exists v. split; [reflexivity|]. intros p. rewrite H. apply tab_ext. apply E. Qed.
Lemma mden_ext n f A A' : mden n f A -> (forall p i j, (i < n)%nat -> (j < n)%nat -> A p i j = A' p i j) -> mden n f A'.
Proof.
  intros (v & -> & H) E. exists v. split; [reflexivity|]. intros p. rewrite H. apply tab_ext. intros i Hi. apply tab_ext. intros j Hj.
  apply E; assumption.
Qed.
Lemma wf_of_matrix n f : is_matrix_fn n f -> wf (PFun f).
Proof. intros (m & -> & L & Rw). exact (rect_intro m n Rw). Qed.
Lemma wf_of_vector n f : is_vector_fn n f -> wf (PFun f).
Proof. intros (v & -> & L). exact I. Qed.

Lemma subst_vector n f m u : vden n f u -> no_reserved f -> Forall indep m ->
  exists h, substituted true f m = Ok h /\ vden n h (fun p => u (at_map m p)).
Proof.
  intros Hf Hr Hm. pose proof (vden_is n f u Hf) as Vf.
  destruct (substituted_ok f m (wf_of_vector n f Vf) Hr Hm) as (h & E & H). exists h. split; [exact E|].
  assert (V : exists v, h = FV v).
  { destruct Hf as (v & -> & _). simpl in E. destruct (map_res _ v); [|discriminate]. injection E as <-. eexists; reflexivity. }
  destruct V as [v ->]. exists v. split; [reflexivity|]. intros p. specialize (H p). rewrite (vden_value n f u _ Hf) in H.
  simpl in H. injection H as H. exact H.
Qed.
Lemma subst_matrix n f m A : mden n f A -> no_reserved f -> Forall indep m ->
  exists h, substituted true f m = Ok h /\ mden n h (fun p => A (at_map m p)).
Proof.
  intros Hf Hr Hm. pose proof (mden_is n f A Hf) as Vf.
  destruct (substituted_ok f m (wf_of_matrix n f Vf) Hr Hm) as (h & E & H). exists h. split; [exact E|].
  assert (V : exists v, h = FM v).
  { destruct Hf as (v & -> & _). simpl in E. destruct (map_res _ v); [|discriminate]. simpl in E.
    apply mk_mat_inv in E. destruct E as [-> _]. eexists; reflexivity. }
  destruct V as [v ->]. exists v. split; [reflexivity|]. intros p. specialize (H p). rewrite (mden_value n f A _ Hf) in H.
  simpl in H. injection H as H. exact H.
Qed.
Lemma subst_scalar f m s : sden f s -> no_reserved f -> Forall indep m ->
  exists h, substituted true f m = Ok h /\ sden h (fun p => s (at_map m p)).
Proof.
  intros (e & -> & Hf) Hr Hm. destruct (substituted_ok (FS e) m I Hr Hm) as (h & E & H). exists h. split; [exact E|].
  assert (V : exists v, h = FS v).
  { unfold substituted, f_subs in E. destruct (subs_expr e _ _); [|discriminate]. injection E as <-. eexists; reflexivity. }
  destruct V as [v ->]. exists v. split; [reflexivity|]. intros p. specialize (H p). simpl in H. injection H as H. rewrite H. apply Hf.
Qed.

(** Results that do not use the reserved symbols *)
Lemma no_reserved_vector n f u : vden n f u -> (forall p q i, agree p q -> (i < n)%nat -> u p i = u q i) -> no_reserved f.
Proof. intros Hf H p q Hpq. rewrite !(vden_value n f u _ Hf). f_equal. apply tab_ext. intros i Hi. apply H; assumption. Qed.
Lemma no_reserved_matrix n f A : mden n f A -> (forall p q i j, agree p q -> (i < n)%nat -> (j < n)%nat -> A p i j = A q i j) -> no_reserved f.
Proof.
  intros Hf H p q Hpq. rewrite !(mden_value n f A _ Hf). f_equal. apply tab_ext. intros i Hi. apply tab_ext. intros j Hj. apply H; assumption.
Qed.
Lemma comp_agree n f p q i : is_vector_fn n f -> no_reserved f -> agree p q -> comp p f i = comp q f i.
Proof. intros (v & -> & _) H Hpq. specialize (H p q Hpq). simpl in *. injection H as H. rewrite H. reflexivity. Qed.
Lemma comp2_agree n f p q i j : is_matrix_fn n f -> no_reserved f -> agree p q -> comp2 p f i j = comp2 q f i j.
Proof. intros (v & -> & _) H Hpq. specialize (H p q Hpq). simpl in *. injection H as H. rewrite H. reflexivity. Qed.

Lemma value_env_ext f p q : (forall s, p s = q s) -> value_at p f = value_at q f.
Proof.
  intros H. assert (E : forall e, ev p e = ev q e) by (intros e; apply ev_ext; intros; apply H).
  destruct f as [e|v|m]; simpl; [rewrite E; reflexivity|f_equal; apply map_ext; exact E|f_equal; apply map_ext; intros r; apply map_ext; exact E].
Qed.
Lemma comp_env_ext f p q i : (forall s, p s = q s) -> comp p f i = comp q f i.
Proof.
  intros H. destruct f as [e|v|m]; simpl; try reflexivity. f_equal. apply map_ext. intros e. apply ev_ext. intros; apply H.
Qed.
Lemma comp2_env_ext f p q i j : (forall s, p s = q s) -> comp2 p f i j = comp2 q f i j.
Proof.
  intros H. destruct f as [e|v|m]; simpl; try reflexivity. do 2 f_equal. apply map_ext. intros r. apply map_ext. intros e. apply ev_ext.
  intros; apply H.
Qed.

(** * Two maps that undo each other *)
Lemma at_map_symbol n m p i : length m = n -> (i < n)%nat -> (n <= 3)%nat -> at_map m p (xs i) = ev p (nth i m (ENum 0)).
Proof.
  intros L Hi Hn. unfold at_map, x_symbols, xs.
  destruct m as [|m1 [|m2 [|m3 [|? ?]]]]; simpl in L; destruct i as [|[|[|i]]]; try lia; simpl; unfold upd; simpl; reflexivity.
Qed.
Lemma at_map_other n m p s : length m = n -> (forall i, (i < n)%nat -> s <> xs i) -> at_map m p s = p s.
Proof.
  intros L H. unfold at_map, x_symbols.
  destruct m as [|m1 [|m2 [|m3 m]]]; simpl in L; subst n; simpl.
  - reflexivity.
  - rewrite upd_other; [reflexivity|]. intros E. apply (H 0%nat); [lia|]. symmetry. exact E.
  - rewrite !upd_other; [reflexivity| |]; intros E; symmetry in E; revert E; [apply (H 1%nat)|apply (H 0%nat)]; lia.
  - rewrite !upd_other; [reflexivity| | |]; intros E; symmetry in E; revert E; [apply (H 2%nat)|apply (H 1%nat)|apply (H 0%nat)]; lia.
Qed.
Lemma at_map_back n m mi p s : (n <= 3)%nat -> length m = n -> length mi = n -> inverse_maps n m mi ->
  at_map mi (at_map m p) s = p s.
Proof.
  intros Hn L Li H.
  assert (D : (exists i, (i < n)%nat /\ s = xs i) \/ (forall i, (i < n)%nat -> s <> xs i)).
  { destruct (String.string_dec s (xs 0)) as [E0|E0]; [destruct (Nat.lt_ge_cases 0 n)|];
    (destruct (String.string_dec s (xs 1)) as [E1|E1]; [destruct (Nat.lt_ge_cases 1 n)|]);
    (destruct (String.string_dec s (xs 2)) as [E2|E2]; [destruct (Nat.lt_ge_cases 2 n)|]);
    try (left; exists 0%nat; split; [lia|assumption]); try (left; exists 1%nat; split; [lia|assumption]);
    try (left; exists 2%nat; split; [lia|assumption]);
    right; intros [|[|[|i]]] Hi; try lia; assumption. }
  destruct D as [(i & Hi & ->)|D].
  - rewrite (at_map_symbol n) by assumption. apply (proj1 (H p i Hi)).
  - rewrite !(at_map_other n) by assumption. reflexivity.
Qed.
Lemma inverse_maps_sym n m mi : inverse_maps n m mi -> inverse_maps n mi m.
Proof. intros H p i Hi. destruct (H p i Hi). split; assumption. Qed.

(** the matrices are inverse to each other *)
Lemma inverse_matrices n m mi A b B c : (n <= 3)%nat -> affine n m A b -> affine n mi B c -> inverse_maps n m mi ->
  is_identity n (mmul n B A).
Proof.
  intros Hn [L Ha] [Li Hb] H i j Hi Hj.
  set (q := fun t : R => (fun s : sym => if String.string_dec s (xs j) then t else 0) : env).
  assert (Q : forall t k, (k < n)%nat -> q t (xs k) = t * delta k j).
  { intros t k Hk. unfold q, delta. destruct (String.string_dec (xs k) (xs j)) as [E|E], (Nat.eq_dec k j) as [E2|E2]; try ring.
    - exfalso. apply (xs_neq k j); [lia|lia|exact E2|exact E].
    - exfalso. apply E. rewrite E2. reflexivity. }
  assert (V : forall t, sum n (fun k => B i k * (A k j * t + b k)) + c i = t * delta i j).
  { intros t. rewrite <- (Q t i Hi). rewrite <- (proj1 (H (q t) i Hi)). rewrite (proj2 (Hb i Hi (at_map m (q t)))).
    f_equal. apply sum_ext. intros k Hk. rewrite (at_map_symbol n) by assumption. rewrite (proj2 (Ha k Hk (q t))). f_equal. f_equal.
    rewrite (sum_ext n _ (fun l => A k l * t * delta l j)) by (intros l Hl; rewrite Q by exact Hl; ring).
    symmetry. exact (sum_delta n j (fun l => A k l * t) Hj). }
  pose proof (V 0) as V0. pose proof (V 1) as V1. unfold mmul.
  rewrite (sum_ext n (fun k => B i k * (A k j * 1 + b k)) (fun k => B i k * A k j + B i k * (A k j * 0 + b k))) in V1 by (intros; ring).
  rewrite sum_plus in V1. lra.
Qed.

(** * Algebra of matrices *)
Lemma app_mat_ext n A A' u u' i : (forall j, (j < n)%nat -> A i j = A' i j) -> (forall j, (j < n)%nat -> u j = u' j) ->
  app_mat n A u i = app_mat n A' u' i.
Proof. intros H1 H2. apply sum_ext. intros j Hj. rewrite H1, H2 by exact Hj. reflexivity. Qed.
Lemma app_app n P Q u i : app_mat n P (app_mat n Q u) i = app_mat n (mmul n P Q) u i.
Proof.
  unfold app_mat, mmul.
  rewrite (sum_ext n _ (fun j => sum n (fun k => P i j * Q j k * u k))) by (intros; rewrite <- sum_scal; apply sum_ext; intros; ring).
  rewrite sum_swap. apply sum_ext. intros k _. apply sum_scal_r.
Qed.
Lemma app_id n P u i : is_identity n P -> (i < n)%nat -> app_mat n P u i = u i.
Proof.
  intros H Hi. unfold app_mat. rewrite (sum_ext n _ (fun k => delta i k * u k)).
  - exact (sum_delta_l n i u Hi).
  - intros k Hk. rewrite (H i k Hi Hk). reflexivity.
Qed.
Lemma dot_app n P u v : dot n (app_mat n P u) v = dot n u (app_mat n (transp P) v).
Proof.
  unfold dot, app_mat, transp.
  rewrite (sum_ext n _ (fun i => sum n (fun j => P i j * u j * v i))) by (intros; rewrite <- sum_scal_r; reflexivity).
  rewrite sum_swap. apply sum_ext. intros j _. rewrite <- sum_scal. apply sum_ext. intros; ring.
Qed.
Lemma dot_ext n u u' v v' : (forall i, (i < n)%nat -> u i = u' i) -> (forall i, (i < n)%nat -> v i = v' i) -> dot n u v = dot n u' v'.
Proof. intros H1 H2. apply sum_ext. intros i Hi. rewrite H1, H2 by exact Hi. reflexivity. Qed.
Lemma transp_identity n P : is_identity n P -> is_identity n (transp P).
Proof. intros H i j Hi Hj. unfold transp. rewrite (H j i Hj Hi). apply delta_sym. Qed.
Lemma transp_mmul n P Q i j : transp (mmul n P Q) i j = mmul n (transp Q) (transp P) i j.
Proof. unfold transp, mmul. apply sum_ext. intros; ring. Qed.
Lemma identity_ext n P Q : is_identity n P -> (forall i j, (i < n)%nat -> (j < n)%nat -> Q i j = P i j) -> is_identity n Q.
Proof. intros H E i j Hi Hj. rewrite E by assumption. apply H; assumption. Qed.
Lemma transp_inverse n P Q : is_identity n (mmul n P Q) -> is_identity n (mmul n (transp Q) (transp P)).
Proof.
  intros H. apply (identity_ext n (transp (mmul n P Q))); [apply transp_identity; exact H|]. intros i j _ _. symmetry. apply transp_mmul.
Qed.
(** the matrix of the contravariant map *)
Definition piola (n : nat) (A : nat -> nat -> R) (i j : nat) : R := A i j / det n A.
Lemma piola_inverse n A B : (n <= 3)%nat -> is_identity n (mmul n B A) -> is_identity n (mmul n (piola n B) (piola n A)).
Proof.
  intros Hn H. pose proof (det_inverse n B A Hn H) as D. assert (DA : det n A <> 0) by (intros E; rewrite E in D; lra).
  assert (DB : det n B <> 0) by (intros E; rewrite E in D; lra).
  apply (identity_ext n (mmul n B A)); [exact H|]. intros i j _ _. unfold mmul, piola.
  rewrite (sum_ext n _ (fun k => / (det n B * det n A) * (B i k * A k j))) by (intros; field; auto).
  rewrite sum_scal, D. field.
Qed.
Definition conj (n : nat) (P X : nat -> nat -> R) : nat -> nat -> R := mmul n (mmul n P X) (transp P).
Lemma conj_conj n P Q X i j : is_identity n (mmul n Q P) -> (i < n)%nat -> (j < n)%nat -> conj n Q (conj n P X) i j = X i j.
Proof.
  intros H Hi Hj. unfold conj.
  transitivity (mmul n (mmul n (mmul n Q P) X) (mmul n (transp P) (transp Q)) i j).
  - rewrite <- (mmul_assoc n (mmul n (mmul n Q P) X) (transp P) (transp Q)).
    apply mmul_ext; [|reflexivity]. intros k Hk.
    rewrite <- (mmul_assoc n Q (mmul n P X) (transp P)). apply mmul_ext; [|reflexivity]. intros l Hl. symmetry. apply mmul_assoc.
  - rewrite mmul_id_r; [apply mmul_id_l; assumption|apply transp_inverse; exact H|exact Hj].
Qed.
Lemma conj_ext n P X X' i j : (forall k l, (k < n)%nat -> (l < n)%nat -> X k l = X' k l) -> conj n P X i j = conj n P X' i j.
Proof.
  intros H. apply mmul_ext; [|reflexivity]. intros k Hk. apply mmul_ext; [reflexivity|]. intros l Hl. apply H; assumption.
Qed.
Lemma dot_conj n P X t s : dot n t (app_mat n (conj n P X) s) = dot n (app_mat n (transp P) t) (app_mat n X (app_mat n (transp P) s)).
Proof.
  unfold conj.
  rewrite (dot_ext n t t (app_mat n (mmul n (mmul n P X) (transp P)) s) (app_mat n P (app_mat n X (app_mat n (transp P) s))) (fun _ _ => eq_refl)).
  - symmetry. rewrite dot_app. reflexivity.
  - intros i Hi. rewrite !app_app. reflexivity.
Qed.
Lemma dot_conj' n P X t s t' s' : (forall i, (i < n)%nat -> app_mat n (transp P) t' i = t i) ->
  (forall i, (i < n)%nat -> app_mat n (transp P) s' i = s i) -> dot n t' (app_mat n (conj n P X) s') = dot n t (app_mat n X s).
Proof.
  intros H1 H2. rewrite dot_conj. apply dot_ext; [exact H1|]. intros i Hi. apply app_mat_ext; [reflexivity|]. exact H2.
Qed.

(** * The value of each mapping *)
Section Values.
Context (n : nat) (m mi : list expr) (A B : nat -> nat -> R) (b c : nat -> R).
Context (Hn : (0 < n <= 3)%nat) (Ha : affine n m A b) (Hb : affine n mi B c).
Let Imi : Forall indep mi. Proof. apply (affine_indep n mi B c); [lia|exact Hb]. Qed.

Lemma identity_value f : wf (PFun f) -> no_reserved f -> exists g, identity (PFun f) m mi true = Ok g /\
  no_reserved g /\ wf (PFun g) /\ forall p, value_at p g = value_at (at_map mi p) f.
Proof.
  intros Hw Hf. unfold identity. cbn [parse_function_input rbind].
  destruct (substituted_ok f mi Hw Hf Imi) as (g & E & H). exists g. split; [exact E|]. split; [|split; [|exact H]].
  - intros p q Hpq. rewrite !H. apply Hf, at_map_agree; assumption.
  - destruct f as [e|v|M]; unfold substituted in E; cbn [f_subs] in E.
    + destruct (subs_expr e _ _); [|discriminate]. injection E as <-. exact I.
    + destruct (map_res _ v); [|discriminate]. injection E as <-. exact I.
    + destruct (map_res _ M); [|discriminate]. simpl in E. apply mk_mat_inv in E. destruct E as [-> Hr]. exact Hr.
Qed.
Lemma det_expr_ok : exists d, rbind (jacobian m (length mi)) det_expr = Ok d /\ forall p, ev p d = det n A.
Proof.
  rewrite (proj1 Hb). destruct (jacobian_ok n m A b Hn Ha) as (J & -> & HJ). simpl. unfold det_expr.
  destruct (det_matrix n J _ Hn HJ) as (d & -> & Hd). exists d. split; [reflexivity|exact Hd].
Qed.
Lemma l2_value f : is_scalar_fn f -> no_reserved f -> exists g, l2 (PFun f) m mi true = Ok g /\
  is_scalar_fn g /\ no_reserved g /\ forall p, scalar_val p g = scalar_val (at_map mi p) f / Rabs (det n A).
Proof.
  intros [e ->] Hf. unfold l2. destruct det_expr_ok as (d & -> & Hd). cbn [parse_function_input rbind].
  destruct (subst_scalar (FS e) mi (fun p => ev p e)) as (g & -> & (e' & -> & Hg)); [exists e; auto|exact Hf|exact Imi|].
  simpl. eexists. split; [reflexivity|]. split; [eexists; reflexivity|].
  split; [|intros p; simpl; rewrite Hg, Hd; reflexivity].
  intros p q Hpq. simpl. rewrite !Hg, !Hd. do 2 f_equal.
  pose proof (Hf _ _ (at_map_agree mi p q Imi Hpq)) as E. simpl in E. congruence.
Qed.
Lemma l2_it_value f : is_scalar_fn f -> no_reserved f -> exists g, l2_inverse_transpose (PFun f) m mi true = Ok g /\
  is_scalar_fn g /\ forall p, scalar_val p g = scalar_val (at_map mi p) f * Rabs (det n A).
Proof.
  intros [e ->] Hf. unfold l2_inverse_transpose. cbn [parse_function_input rbind].
  destruct (subst_scalar (FS e) mi (fun p => ev p e)) as (g & -> & (e' & -> & Hg)); [exists e; auto|exact Hf|exact Imi|].
  destruct det_expr_ok as (d & -> & Hd).
  simpl. eexists. split; [reflexivity|]. split; [eexists; reflexivity|]. intros p; simpl; rewrite Hg, Hd; reflexivity.
Qed.

Let at_mi_agree p q : agree p q -> agree (at_map mi p) (at_map mi q).
Proof. apply at_map_agree. exact Imi. Qed.

Lemma covariant_value f : is_vector_fn n f -> no_reserved f -> exists g, covariant (PFun f) m mi true = Ok g /\
  is_vector_fn n g /\ no_reserved g /\ forall p i, (i < n)%nat -> comp p g i = app_mat n (transp B) (comp (at_map mi p) f) i.
Proof.
  intros Vf Hf. unfold covariant. cbn [parse_function_input rbind].
  destruct (subst_vector n f mi _ (vden_of n f Vf) Hf Imi) as (g & -> & Hg). cbn [rbind].
  replace (assert_vector g) with (@Ok func g) by (destruct Hg as (? & -> & _); reflexivity). cbn [rbind].
  rewrite (proj1 Hb). destruct (j_inv_ok n mi B c Hn Hb) as (J & -> & HJ). cbn [rbind].
  destruct (matmul_vector n J g _ _ (proj1 Hn) HJ Hg) as (r & -> & Hr). exists r. split; [reflexivity|].
  split; [exact (vden_is n r _ Hr)|]. split.
  - apply (no_reserved_vector n r _ Hr). intros p q i Hpq Hi. apply app_mat_ext; [reflexivity|]. intros j Hj.
    apply (comp_agree n); [exact Vf|exact Hf|apply at_mi_agree; exact Hpq].
  - intros p i Hi. rewrite (vden_comp n r _ p i Hr Hi). reflexivity.
Qed.
Lemma contravariant_value f : is_vector_fn n f -> no_reserved f -> exists g, contravariant (PFun f) m mi true = Ok g /\
  is_vector_fn n g /\ no_reserved g /\ forall p i, (i < n)%nat -> comp p g i = app_mat n (piola n A) (comp (at_map mi p) f) i.
Proof.
  intros Vf Hf. unfold contravariant. cbn [parse_function_input rbind].
  destruct (subst_vector n f mi _ (vden_of n f Vf) Hf Imi) as (g & -> & Hg). cbn [rbind].
  replace (assert_vector g) with (@Ok func g) by (destruct Hg as (? & -> & _); reflexivity). cbn [rbind].
  rewrite (proj1 Hb). destruct (jacobian_ok n m A b Hn Ha) as (J & -> & HJ). cbn [rbind].
  destruct (det_matrix n J _ Hn HJ) as (d & -> & Hd). cbn [rbind].
  destruct (div_matrix n J _ d _ HJ Hd) as (K & -> & HK). cbn [rbind].
  destruct (matmul_vector n K g _ _ (proj1 Hn) HK Hg) as (r & -> & Hr). exists r. split; [reflexivity|].
  split; [exact (vden_is n r _ Hr)|]. split.
  - apply (no_reserved_vector n r _ Hr). intros p q i Hpq Hi. apply app_mat_ext; [reflexivity|]. intros j Hj.
    apply (comp_agree n); [exact Vf|exact Hf|apply at_mi_agree; exact Hpq].
  - intros p i Hi. rewrite (vden_comp n r _ p i Hr Hi). reflexivity.
Qed.
Lemma covariant_it_value f : is_vector_fn n f -> no_reserved f -> exists g, covariant_inverse_transpose (PFun f) m mi true = Ok g /\
  is_vector_fn n g /\ forall p i, (i < n)%nat -> comp p g i = app_mat n A (comp (at_map mi p) f) i.
Proof.
  intros Vf Hf. unfold covariant_inverse_transpose. cbn [parse_function_input rbind].
  destruct (subst_vector n f mi _ (vden_of n f Vf) Hf Imi) as (g & -> & Hg). cbn [rbind].
  replace (assert_vector g) with (@Ok func g) by (destruct Hg as (? & -> & _); reflexivity). cbn [rbind].
  rewrite (proj1 Hb). destruct (jacobian_ok n m A b Hn Ha) as (J & -> & HJ). cbn [rbind].
  destruct (matmul_vector n J g _ _ (proj1 Hn) HJ Hg) as (r & -> & Hr). exists r. split; [reflexivity|].
  split; [exact (vden_is n r _ Hr)|]. intros p i Hi. rewrite (vden_comp n r _ p i Hr Hi). reflexivity.
Qed.
Lemma contravariant_it_value f : is_vector_fn n f -> no_reserved f -> exists g, contravariant_inverse_transpose (PFun f) m mi true = Ok g /\
  is_vector_fn n g /\ forall p i, (i < n)%nat -> comp p g i = app_mat n (fun i j => B j i / det n B) (comp (at_map mi p) f) i.
Proof.
  intros Vf Hf. unfold contravariant_inverse_transpose. cbn [parse_function_input rbind].
  destruct (subst_vector n f mi _ (vden_of n f Vf) Hf Imi) as (g & -> & Hg). cbn [rbind].
  replace (assert_vector g) with (@Ok func g) by (destruct Hg as (? & -> & _); reflexivity). cbn [rbind].
  rewrite (proj1 Hb). destruct (j_inv_ok n mi B c Hn Hb) as (J & -> & HJ). cbn [rbind].
  destruct (det_matrix n J _ Hn HJ) as (d & -> & Hd). cbn [rbind].
  destruct (div_matrix n J _ d _ HJ Hd) as (K & -> & HK). cbn [rbind].
  destruct (matmul_vector n K g _ _ (proj1 Hn) HK Hg) as (r & -> & Hr). exists r. split; [reflexivity|].
  split; [exact (vden_is n r _ Hr)|]. intros p i Hi. rewrite (vden_comp n r _ p i Hr Hi).
  apply app_mat_ext; [|reflexivity]. intros j _. rewrite det_transp by lia. reflexivity.
Qed.
Lemma double_covariant_value f : is_matrix_fn n f -> no_reserved f -> exists g, double_covariant (PFun f) m mi true = Ok g /\
  is_matrix_fn n g /\ no_reserved g /\
  forall p i j, (i < n)%nat -> (j < n)%nat -> comp2 p g i j = conj n (transp B) (comp2 (at_map mi p) f) i j.
Proof.
  intros Vf Hf. unfold double_covariant. cbn [parse_function_input rbind].
  destruct (subst_matrix n f mi _ (mden_of n f Vf) Hf Imi) as (g & -> & Hg). cbn [rbind].
  replace (assert_matrix g) with (@Ok func g) by (destruct Hg as (? & -> & _); reflexivity). cbn [rbind].
  rewrite (proj1 Hb). destruct (j_inv_ok n mi B c Hn Hb) as (J & -> & HJ). cbn [rbind].
  destruct (matmul_matrix n J g _ _ (proj1 Hn) HJ Hg) as (l & -> & Hl). cbn [rbind].
  destruct (transpose_matrix n J _ (proj1 Hn) HJ) as (Jt & -> & HJt). cbn [rbind].
  destruct (matmul_matrix n l Jt _ _ (proj1 Hn) Hl HJt) as (r & -> & Hr). exists r. split; [reflexivity|].
  split; [exact (mden_is n r _ Hr)|]. split.
  - apply (no_reserved_matrix n r _ Hr). intros p q i j Hpq Hi Hj. apply (conj_ext n (transp B)). intros k k' _ _.
    apply (comp2_agree n); [exact Vf|exact Hf|apply at_mi_agree; exact Hpq].
  - intros p i j Hi Hj. rewrite (mden_comp2 n r _ p i j Hr Hi Hj). reflexivity.
Qed.
Lemma double_contravariant_value f : is_matrix_fn n f -> no_reserved f -> exists g, double_contravariant (PFun f) m mi true = Ok g /\
  is_matrix_fn n g /\ no_reserved g /\
  forall p i j, (i < n)%nat -> (j < n)%nat -> comp2 p g i j = conj n (piola n A) (comp2 (at_map mi p) f) i j.
Proof.
  intros Vf Hf. unfold double_contravariant. cbn [parse_function_input rbind].
  destruct (subst_matrix n f mi _ (mden_of n f Vf) Hf Imi) as (g & -> & Hg). cbn [rbind].
  replace (assert_matrix g) with (@Ok func g) by (destruct Hg as (? & -> & _); reflexivity). cbn [rbind].
  rewrite (proj1 Hb). destruct (jacobian_ok n m A b Hn Ha) as (J & -> & HJ). cbn [rbind].
  destruct (det_matrix n J _ Hn HJ) as (d & -> & Hd). cbn [rbind].
  destruct (div_matrix n J _ d _ HJ Hd) as (K & -> & HK). cbn [rbind].
  destruct (matmul_matrix n K g _ _ (proj1 Hn) HK Hg) as (l & -> & Hl). cbn [rbind].
  destruct (transpose_matrix n K _ (proj1 Hn) HK) as (Jt & -> & HJt). cbn [rbind].
  destruct (matmul_matrix n l Jt _ _ (proj1 Hn) Hl HJt) as (r & -> & Hr). exists r. split; [reflexivity|].
  split; [exact (mden_is n r _ Hr)|]. split.
  - apply (no_reserved_matrix n r _ Hr). intros p q i j Hpq Hi Hj. apply (conj_ext n (piola n A)). intros k k' _ _.
    apply (comp2_agree n); [exact Vf|exact Hf|apply at_mi_agree; exact Hpq].
  - intros p i j Hi Hj. rewrite (mden_comp2 n r _ p i j Hr Hi Hj). reflexivity.
Qed.
End Values.

Lemma vector_value_eq n f g p : is_vector_fn n f -> is_vector_fn n g -> (forall i, (i < n)%nat -> comp p f i = comp p g i) ->
  value_at p f = value_at p g.
Proof.
  intros Hf Hg H. rewrite (vden_value n f _ p (vden_of n f Hf)), (vden_value n g _ p (vden_of n g Hg)). f_equal. apply tab_ext. exact H.
Qed.
Lemma matrix_value_eq n f g p : is_matrix_fn n f -> is_matrix_fn n g ->
  (forall i j, (i < n)%nat -> (j < n)%nat -> comp2 p f i j = comp2 p g i j) -> value_at p f = value_at p g.
Proof.
  intros Hf Hg H. rewrite (mden_value n f _ p (mden_of n f Hf)), (mden_value n g _ p (mden_of n g Hg)). f_equal.
  apply tab_ext. intros i Hi. apply tab_ext. intros j Hj. apply H; assumption.
Qed.
Lemma scalar_value_eq f g p q : is_scalar_fn f -> is_scalar_fn g -> scalar_val p f = scalar_val q g -> value_at p f = value_at q g.
Proof. intros [e ->] [e' ->] H. simpl in *. rewrite H. reflexivity. Qed.
