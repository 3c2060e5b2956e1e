(** Vector polynomials: coefficients, independence, derivatives. *)
From Coq Require Import String Arith ZArith Reals Lia Lra List.
From Verif Require Import Base PolyLib PolySetsModel PolySetsProofs.
Import ListNotations.
Open Scope R_scope.

(** * Specification of partial derivatives, divergence, curl (stdlib derivative) *)

Definition upd (v : point) (i : nat) (t : R) : point := fun j => if Nat.eq_dec j i then t else v j.

(** [l] is the partial derivative of [f] with respect to variable [i] at [v]. *)
Definition is_partial (i : nat) (f : sfun) (v : point) (l : R) : Prop :=
  derivable_pt_lim (fun t => f (upd v i t)) (v i) l.

(** [l] is the divergence of the field [F] with components 0..d-1 at [v]. *)
Definition is_div (d : nat) (F : vfun) (v : point) (l : R) : Prop :=
  exists ds : nat -> R, (forall i, (i < d)%nat -> is_partial i (vcomp F i) v (ds i)) /\
    l = fold_right Rplus 0 (map ds (seq 0 d)).

(** [l] is the scalar curl d(F1)/dx - d(F0)/dy of a 2D field. *)
Definition is_rot (F : vfun) (v : point) (l : R) : Prop :=
  exists a b, is_partial 0 (vcomp F 1) v a /\ is_partial 1 (vcomp F 0) v b /\ l = a - b.

(** all components of the curl of a 3D field are zero at [v] *)
Definition is_curl_zero (F : vfun) (v : point) : Prop :=
  exists D : nat -> nat -> R,   (* D i j = d F_i / d x_j *)
    (forall i j, (i < 3)%nat -> (j < 3)%nat -> is_partial j (vcomp F i) v (D i j)) /\
    D 2%nat 1%nat - D 1%nat 2%nat = 0 /\ D 0%nat 2%nat - D 2%nat 0%nat = 0 /\ D 1%nat 0%nat - D 0%nat 1%nat = 0.

Lemma is_partial_unique i f v a b : is_partial i f v a -> is_partial i f v b -> a = b.
Proof. apply uniqueness_limite. Qed.

(** * Correctness of the term-wise derivative *)
Lemma upd_same v i t : upd v i t i = t.
Proof. unfold upd. destruct (Nat.eq_dec i i); [reflexivity|congruence]. Qed.
Lemma upd_other v i j t : j <> i -> upd v i t j = v j.
Proof. intros H. unfold upd. destruct (Nat.eq_dec j i); [congruence|reflexivity]. Qed.
Lemma upd_self v i j : upd v i (v i) j = v j.
Proof. unfold upd. destruct (Nat.eq_dec j i); [congruence|reflexivity]. Qed.

Lemma meval_from_upd_const m : forall k v i t, (i < k)%nat -> meval_from k m (upd v i t) = meval_from k m v.
Proof.
  intros k v i t H. apply meval_from_ext. intros j Hj. apply upd_other. lia.
Qed.

Lemma derivable_pt_lim_const (c x : R) : derivable_pt_lim (fun _ => c) x 0.
Proof. apply (derivable_pt_lim_const c x). Qed.

Lemma meval_from_partial m : forall k i v,
  derivable_pt_lim (fun t => meval_from k m (upd v (k + i) t)) (v (k + i)%nat)
    (INR (nth i m 0%nat) * meval_from k (dec_at i m) v).
Proof.
  induction m as [|e m IH]; intros k i v.
  - simpl. destruct i; simpl; replace (0 * 1) with 0 by ring; apply derivable_pt_lim_const.
  - destruct i as [|i].
    + cbn [nth dec_at meval_from]. rewrite Nat.add_0_r.
      assert (E : forall t, meval_from (S k) m (upd v k t) = meval_from (S k) m v)
        by (intros t; apply meval_from_upd_const; lia).
      apply derivable_pt_lim_ext with (f := fun t => t ^ e * meval_from (S k) m v).
      { intros t. rewrite upd_same, E. reflexivity. }
      replace (INR e * (v k ^ (e - 1) * meval_from (S k) m v)) with
        ((INR e * v k ^ pred e) * meval_from (S k) m v + v k ^ e * 0).
      2: { replace (pred e) with (e - 1)%nat by lia. ring. }
      apply (derivable_pt_lim_mult (fun t => t ^ e) (fun _ => meval_from (S k) m v)).
      * apply derivable_pt_lim_pow.
      * apply derivable_pt_lim_const.
    + cbn [nth dec_at meval_from].
      apply derivable_pt_lim_ext with (f := fun t => v k ^ e * meval_from (S k) m (upd v (S k + i) t)).
      { intros t. rewrite upd_other by lia. replace (k + S i)%nat with (S k + i)%nat by lia. reflexivity. }
      replace (k + S i)%nat with (S k + i)%nat by lia.
      replace (INR (nth i m 0%nat) * (v k ^ e * meval_from (S k) (dec_at i m) v)) with
        (v k ^ e * (INR (nth i m 0%nat) * meval_from (S k) (dec_at i m) v)) by ring.
      apply (derivable_pt_lim_scal (fun t => meval_from (S k) m (upd v (S k + i) t)) (v k ^ e)).
      apply IH.
Qed.

Lemma meval_partial m i v : is_partial i (meval m) v (INR (nth i m 0%nat) * meval (dec_at i m) v).
Proof. unfold is_partial, meval. apply (meval_from_partial m 0 i v). Qed.

Lemma zeval_partial p i v : is_partial i (zeval p) v (zeval (zdiff i p) v).
Proof.
  induction p as [|[c m] p IH]; unfold is_partial; simpl.
  - apply derivable_pt_lim_const.
  - rewrite mult_IZR, <- INR_IZR_INZ.
    apply (derivable_pt_lim_plus (fun t => IZR c * meval m (upd v i t)) (fun t => zeval p (upd v i t))); [|exact IH].
    rewrite Rmult_assoc.
    apply (derivable_pt_lim_scal (fun t => meval m (upd v i t)) (IZR c)). apply meval_partial.
Qed.

Lemma vcomp_veval F c v : vcomp (veval F) c v = zeval (nth c F []) v.
Proof.
  unfold vcomp, veval. destruct (lt_dec c (length F)) as [H|H].
  - rewrite nth_indep with (d' := zeval [] v) by (rewrite map_length; lia).
    apply (map_nth (fun p => zeval p v) F [] c).
  - rewrite !nth_overflow by (rewrite ?map_length; lia). reflexivity.
Qed.

Lemma vcomp_partial F c i v : is_partial i (vcomp (veval F) c) v (zeval (zdiff i (nth c F [])) v).
Proof.
  unfold is_partial.
  apply derivable_pt_lim_ext with (f := fun t => zeval (nth c F []) (upd v i t)).
  - intros t. rewrite vcomp_veval. reflexivity.
  - apply zeval_partial.
Qed.

(** formal divergence *)
Definition zdiv (d : nat) (F : vpoly) : zpoly :=
  flat_map (fun i => zdiff i (nth i F [])) (seq 0 d).

Lemma zeval_flat_map {A} (f : A -> zpoly) l v :
  zeval (flat_map f l) v = fold_right Rplus 0 (map (fun a => zeval (f a) v) l).
Proof. induction l as [|a l IH]; simpl; [reflexivity|]. rewrite zeval_app, IH. reflexivity. Qed.

Lemma is_div_zdiv d F v : is_div d (veval F) v (zeval (zdiv d F) v).
Proof.
  exists (fun i => zeval (zdiff i (nth i F [])) v). split.
  - intros i _. apply vcomp_partial.
  - unfold zdiv. apply zeval_flat_map.
Qed.

Lemma is_div_unique d F v a b : is_div d F v a -> is_div d F v b -> a = b.
Proof.
  intros (f & Hf & ->) (g & Hg & ->). f_equal. apply map_ext_in. intros i Hi. apply in_seq in Hi.
  apply (is_partial_unique i (vcomp F i) v); [apply Hf|apply Hg]; lia.
Qed.

Lemma zeval_zneg p v : zeval (zneg p) v = - zeval p v.
Proof. induction p as [|[c m] p IH]; simpl; [lra|]. rewrite IH, opp_IZR. lra. Qed.

Lemma zdiff_app i p q : zdiff i (p ++ q) = zdiff i p ++ zdiff i q.
Proof. unfold zdiff. apply map_app. Qed.

Lemma zdiff_zneg i p : zdiff i (zneg p) = zneg (zdiff i p).
Proof.
  unfold zdiff, zneg. rewrite !map_map. apply map_ext. intros [c m]; simpl. f_equal. ring.
Qed.

Lemma nth_dec_at_other i j m : i <> j -> nth i (dec_at j m) 0%nat = nth i m 0%nat.
Proof.
  revert i j. induction m as [|e m IH]; intros i j H; simpl; [destruct j; reflexivity|].
  destruct j as [|j], i as [|i]; simpl; try reflexivity; try congruence. apply IH. congruence.
Qed.

Lemma dec_at_comm i j m : i <> j -> dec_at i (dec_at j m) = dec_at j (dec_at i m).
Proof.
  revert i j. induction m as [|e m IH]; intros i j H; simpl; [destruct i, j; reflexivity|].
  destruct j as [|j], i as [|i]; simpl; try reflexivity; try congruence. f_equal. apply IH. congruence.
Qed.

Lemma zdiff_comm i j p : i <> j -> zdiff i (zdiff j p) = zdiff j (zdiff i p).
Proof.
  intros H. unfold zdiff. rewrite !map_map. apply map_ext. intros [c m]; simpl.
  rewrite !nth_dec_at_other by congruence. rewrite (dec_at_comm i j m H). f_equal. ring.
Qed.

Lemma div_curl_zero A v : zeval (zdiv 3 (vcurl A)) v = 0.
Proof.
  unfold zdiv, vcurl, zadd. cbn [seq flat_map nth app]. rewrite app_nil_r.
  rewrite !zdiff_app, !zdiff_zneg, !zeval_app, !zeval_zneg.
  rewrite (zdiff_comm 0 1) by congruence. rewrite (zdiff_comm 0 2) by congruence.
  rewrite (zdiff_comm 1 2) by congruence. ring.
Qed.

Theorem curl_div_free A v : is_div 3 (veval (vcurl A)) v 0.
Proof. rewrite <- (div_curl_zero A v). apply is_div_zdiv. Qed.

Definition vgrad (p : zpoly) : vpoly := map (fun i => zdiff i p) (range 3).

Theorem grad_curl_free p v : is_curl_zero (veval (vgrad p)) v.
Proof.
  exists (fun i j => zeval (zdiff j (nth i (vgrad p) [])) v). split; [|split; [|split]].
  - intros i j _ _. apply vcomp_partial.
  - unfold vgrad, range; cbn [seq map nth]. rewrite (zdiff_comm 1 2) by congruence. ring.
  - unfold vgrad, range; cbn [seq map nth]. rewrite (zdiff_comm 2 0) by congruence. ring.
  - unfold vgrad, range; cbn [seq map nth]. rewrite (zdiff_comm 0 1) by congruence. ring.
Qed.

(** * Independence by private monomials *)
Definition zcoef (p : zpoly) (m : mono) : Z :=
  fold_right (fun t acc => ((if mono_eq_dec (snd t) m then fst t else 0) + acc)%Z) 0%Z p.

Lemma coef_z2r p m : coef (z2r p) m = IZR (zcoef p m).
Proof.
  induction p as [|[c a] p IH]; simpl; [reflexivity|]. rewrite plus_IZR, IH.
  destruct (mono_eq_dec a m); reflexivity.
Qed.

Definition monos_len (d : nat) (L : list vpoly) : Prop :=
  Forall (Forall (Forall (fun t : Z * mono => length (snd t) = d))) L.

Fixpoint csum (cs : list R) (xs : list R) : R :=
  match cs, xs with c :: cs', x :: xs' => c * x + csum cs' xs' | _, _ => 0 end.

Lemma coef_rlincomb cs : forall ps m, coef (rlincomb cs ps) m = csum cs (map (fun p => coef p m) ps).
Proof.
  induction cs as [|c cs IH]; intros [|p ps] m; simpl; try reflexivity.
  rewrite coef_app, coef_rscale, IH. reflexivity.
Qed.

Lemma csum_zero_but cs : forall xs, Forall (fun x => x = 0) xs -> csum cs xs = 0.
Proof.
  induction cs as [|c cs IH]; intros [|x xs] H; simpl; try reflexivity.
  inversion H; subst. rewrite IH by assumption. lra.
Qed.

Definition vzcoef (k : nat) (m : mono) (F : vpoly) : Z := zcoef (nth k F []) m.

Lemma vlincomb_coefs d L cs : monos_len d L ->
  (forall c v, lincomb cs (map (fun f => vcomp f c) (map veval L)) v = 0) ->
  forall k m, length m = d -> csum cs (map (fun F => IZR (vzcoef k m F)) L) = 0.
Proof.
  intros Hlen Hz k m Hm.
  rewrite <- (poly_identity d (rlincomb cs (map (fun F => z2r (nth k F [])) L)) ) with (m := m); [| | |exact Hm].
  - rewrite coef_rlincomb, map_map. f_equal. apply map_ext. intros F. unfold vzcoef. rewrite coef_z2r. reflexivity.
  - apply Forall_rlincomb with (Q := fun m => length m = d).
    apply Forall_forall. intros p Hp. apply in_map_iff in Hp. destruct Hp as (F & <- & HF).
    unfold monos_len in Hlen. rewrite Forall_forall in Hlen. specialize (Hlen F HF).
    unfold z2r. apply Forall_forall. intros t Ht. apply in_map_iff in Ht. destruct Ht as (u & <- & Hu). simpl.
    destruct (lt_dec k (length F)) as [Hk|Hk].
    + rewrite Forall_forall in Hlen. specialize (Hlen (nth k F []) (nth_In F [] Hk)).
      rewrite Forall_forall in Hlen. apply (Hlen u Hu).
    + rewrite nth_overflow in Hu by lia. contradiction.
  - intros v. rewrite reval_rlincomb. rewrite <- (Hz k v). apply lincomb_ext.
    rewrite !map_map. apply map_ext. intros F. rewrite vcomp_veval, reval_z2r. reflexivity.
Qed.

(** every member has a (component, monomial) position where it alone is non-zero *)
Definition private_pivots (L : list vpoly) (piv : vpoly -> nat * mono) (d : nat) : Prop :=
  forall F, In F L -> length (snd (piv F)) = d /\
    vzcoef (fst (piv F)) (snd (piv F)) F <> 0%Z /\
    forall G, In G L -> G <> F -> vzcoef (fst (piv F)) (snd (piv F)) G = 0%Z.

Lemma zero_coefs_by_pivots L piv d : NoDup L -> private_pivots L piv d ->
  forall cs, length cs = length L ->
  (forall k m, length m = d -> csum cs (map (fun F => IZR (vzcoef k m F)) L) = 0) ->
  Forall (fun c => c = 0) cs.
Proof.
  intros Hnd Hp cs Hlen Hz.
  assert (Hgen : forall pre suf cpre csuf, L = pre ++ suf -> length cpre = length pre ->
     length csuf = length suf -> cs = cpre ++ csuf -> Forall (fun c => c = 0) csuf).
  { intros pre suf. revert pre. induction suf as [|F suf IH]; intros pre cpre csuf HL Hlp Hls Hcs.
    - destruct csuf; [constructor|discriminate].
    - destruct csuf as [|c csuf]; [discriminate|].
      assert (HF : In F L) by (rewrite HL; apply in_or_app; right; left; reflexivity).
      destruct (Hp F HF) as (Hl & Hne & Hoth).
      specialize (Hz (fst (piv F)) (snd (piv F)) Hl). set (k := fst (piv F)) in *. set (m := snd (piv F)) in *.
      rewrite HL, Hcs, map_app in Hz.
      assert (Hsplit : forall a b x y, length a = length x -> csum (a ++ b) (x ++ y) = csum a x + csum b y).
      { clear. induction a as [|a0 a IH]; intros b [|x0 x] y H; simpl in *; try discriminate; [lra|].
        rewrite IH by lia. lra. }
      rewrite Hsplit in Hz by (rewrite map_length; exact Hlp). simpl in Hz.
      assert (Hnin : ~ In F pre /\ ~ In F suf).
      { rewrite HL in Hnd. apply NoDup_remove_2 in Hnd. rewrite in_app_iff in Hnd. tauto. }
      rewrite (csum_zero_but cpre) in Hz.
      2: { apply Forall_forall. intros x Hx. apply in_map_iff in Hx. destruct Hx as (G & <- & HG).
           rewrite Hoth; [reflexivity|rewrite HL; apply in_or_app; left; exact HG|intros ->; tauto]. }
      rewrite (csum_zero_but csuf) in Hz.
      2: { apply Forall_forall. intros x Hx. apply in_map_iff in Hx. destruct Hx as (G & <- & HG).
           rewrite Hoth; [reflexivity|rewrite HL; apply in_or_app; right; right; exact HG|intros ->; tauto]. }
      constructor.
      + assert (E : c * IZR (vzcoef k m F) = 0) by lra. apply Rmult_integral in E.
        destruct E as [E|E]; [exact E|]. exfalso. apply Hne. apply eq_IZR in E. exact E.
      + apply (IH (pre ++ [F]) (cpre ++ [c])).
        * rewrite <- app_assoc. exact HL.
        * rewrite !app_length. simpl. lia.
        * simpl in Hls. lia.
        * rewrite <- app_assoc. exact Hcs. }
  apply (Hgen [] L [] cs); auto.
Qed.

Lemma independent_by_pivots d L piv : NoDup L -> monos_len d L -> private_pivots L piv d ->
  vindependent (map veval L).
Proof.
  intros Hnd Hlen Hp cs Hcs Hz. rewrite map_length in Hcs.
  apply (zero_coefs_by_pivots L piv d Hnd Hp cs Hcs).
  apply vlincomb_coefs; assumption.
Qed.
