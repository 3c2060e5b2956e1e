(** Shared vocabulary: polynomials as data and as functions on points.

    symfem represents functions by sympy expressions.  The sympy engine is not
    modelled; a polynomial that the python code builds is modelled as a list of
    terms (coefficient, exponent list) in the order in which the code writes
    them, and is given meaning by evaluation at points of real space.
    (Modelled symbol table: /repo/symfem/symbols.py:9, x = (x, y, z).) *)
From Coq Require Import List Arith ZArith Reals Lia Lra.
Import ListNotations.
Open Scope R_scope.

(** A point: the value of variable number i.  (/repo/symfem/symbols.py:9) *)
Definition point := nat -> R.

(** Exponent list [e0; e1; e2] stands for x0**e0 * x1**e1 * x2**e2, as written
    in /repo/symfem/polynomials/polysets.py:26-38. *)
Definition mono := list nat.

Fixpoint meval_from (i : nat) (m : mono) (v : point) : R :=
  match m with
  | [] => 1
  | e :: m' => v i ^ e * meval_from (S i) m' v
  end.

(** Value of a monomial at a point. *)
Definition meval (m : mono) (v : point) : R := meval_from 0 m v.

(** Total degree of a monomial. *)
Fixpoint mdeg (m : mono) : nat :=
  match m with [] => 0%nat | e :: m' => (e + mdeg m')%nat end.

(** Polynomials with integer coefficients: what the set functions of
    /repo/symfem/polynomials/polysets.py build. *)
Definition zpoly := list (Z * mono).
Definition zeval (p : zpoly) (v : point) : R :=
  fold_right (fun t acc => IZR (fst t) * meval (snd t) v + acc) 0 p.

(** Polynomials with real coefficients: arbitrary elements of a space. *)
Definition rpoly := list (R * mono).
Definition reval (p : rpoly) (v : point) : R :=
  fold_right (fun t acc => fst t * meval (snd t) v + acc) 0 p.

Definition z2r (p : zpoly) : rpoly := map (fun t => (IZR (fst t), snd t)) p.

(** * Specification vocabulary: functions, spans, bases *)

Definition sfun := point -> R.               (* scalar function *)
Definition vfun := point -> list R.          (* vector function: component list *)

Fixpoint lincomb (cs : list R) (fs : list sfun) (v : point) : R :=
  match cs, fs with
  | c :: cs', f :: fs' => c * f v + lincomb cs' fs' v
  | _, _ => 0
  end.

(** No non-trivial linear combination is the zero function. *)
Definition independent (fs : list sfun) : Prop :=
  forall cs, length cs = length fs ->
    (forall v, lincomb cs fs v = 0) -> Forall (fun c => c = 0) cs.

(** [f] is a linear combination of [fs]. *)
Definition in_span (fs : list sfun) (f : sfun) : Prop :=
  exists cs, length cs = length fs /\ forall v, f v = lincomb cs fs v.

(** [fs] is a basis of the set of functions [S]. *)
Definition is_basis (fs : list sfun) (S : sfun -> Prop) : Prop :=
  independent fs /\ (forall f, In f fs -> S f) /\ (forall f, S f -> in_span fs f).

(** Functions given by polynomials all of whose monomials satisfy [ok]. *)
Definition poly_space (ok : mono -> Prop) (f : sfun) : Prop :=
  exists p : rpoly, Forall (fun t => ok (snd t)) p /\ forall v, f v = reval p v.

(** Vector versions: component by component. *)
Definition vcomp (f : vfun) (c : nat) : sfun := fun v => nth c (f v) 0.

Definition vindependent (fs : list vfun) : Prop :=
  forall cs, length cs = length fs ->
    (forall c v, lincomb cs (map (fun f => vcomp f c) fs) v = 0) ->
    Forall (fun c => c = 0) cs.

Definition vin_span (fs : list vfun) (f : vfun) : Prop :=
  exists cs, length cs = length fs /\
    forall c v, vcomp f c v = lincomb cs (map (fun g => vcomp g c) fs) v.

(** * Basic lemmas *)

Lemma reval_app p q v : reval (p ++ q) v = reval p v + reval q v.
Proof. induction p as [|t p IH]; simpl; [lra|rewrite IH; lra]. Qed.

Lemma zeval_app p q v : zeval (p ++ q) v = zeval p v + zeval q v.
Proof. induction p as [|t p IH]; simpl; [lra|rewrite IH; lra]. Qed.

Lemma reval_z2r p v : reval (z2r p) v = zeval p v.
Proof. induction p as [|t p IH]; simpl; [lra|rewrite IH; lra]. Qed.

Definition mono_eq_dec : forall a b : mono, {a = b} + {a <> b} := list_eq_dec Nat.eq_dec.
Arguments mono_eq_dec : simpl never.

(** Coefficient of monomial [m] in [p]. *)
Definition coef (p : rpoly) (m : mono) : R :=
  fold_right (fun t acc => (if mono_eq_dec (snd t) m then fst t else 0) + acc) 0 p.

Lemma coef_app p q m : coef (p ++ q) m = coef p m + coef q m.
Proof. induction p as [|t p IH]; simpl; [lra|rewrite IH; lra]. Qed.

Definition rscale (c : R) (p : rpoly) : rpoly := map (fun t => (c * fst t, snd t)) p.

Lemma reval_rscale c p v : reval (rscale c p) v = c * reval p v.
Proof. induction p as [|t p IH]; simpl; [lra|rewrite IH; lra]. Qed.

Lemma coef_rscale c p m : coef (rscale c p) m = c * coef p m.
Proof. induction p as [|t p IH]; simpl; [lra|rewrite IH; destruct (mono_eq_dec (snd t) m); lra]. Qed.

Lemma meval_from_ext m : forall i v w, (forall j, (i <= j)%nat -> v j = w j) ->
  meval_from i m v = meval_from i m w.
Proof.
  induction m as [|e m IH]; intros i v w H; simpl; [reflexivity|].
  rewrite (H i) by lia. f_equal. apply IH. intros j Hj; apply H; lia.
Qed.

Lemma meval_from_shift m : forall i v, meval_from (S i) m v = meval_from i m (fun j => v (S j)).
Proof. induction m as [|e m IH]; intros i v; simpl; [reflexivity|]. rewrite IH. reflexivity. Qed.

Lemma meval_cons e m v : meval (e :: m) v = v 0%nat ^ e * meval m (fun j => v (S j)).
Proof. unfold meval. simpl. rewrite meval_from_shift. reflexivity. Qed.

(** ** Univariate identity theorem on lists of (coefficient, exponent) *)
Definition ueval (p : list (R * nat)) (t : R) : R :=
  fold_right (fun a acc => fst a * t ^ snd a + acc) 0 p.
Definition ucoef (p : list (R * nat)) (k : nat) : R :=
  fold_right (fun a acc => (if Nat.eq_dec (snd a) k then fst a else 0) + acc) 0 p.

Lemma ueval_continuous p t : continuity_pt (ueval p) t.
Proof.
  induction p as [|[c e] p IH]; simpl.
  - apply continuity_pt_const. intros x y; reflexivity.
  - change (continuity_pt (plus_fct (mult_fct (fct_cte c) (fun t => t ^ e)) (ueval p)) t).
    apply continuity_pt_plus; [|exact IH].
    apply continuity_pt_mult; [apply continuity_pt_const; intros x y; reflexivity|].
    apply derivable_continuous_pt. apply derivable_pt_pow.
Qed.

Lemma cont_zero_off0 f : continuity_pt f 0 -> (forall t, t <> 0 -> f t = 0) -> f 0 = 0.
Proof.
  intros Hc Hz. destruct (Req_dec (f 0) 0) as [E|E]; [exact E|exfalso].
  destruct (Hc (Rabs (f 0))) as [al [Hal H]]; [apply Rabs_pos_lt; exact E|].
  specialize (H (al/2)). simpl in H. unfold dist in H. simpl in H. unfold R_dist in H.
  rewrite (Hz (al/2)) in H by lra.
  replace (0 - f 0) with (- f 0) in H by ring. rewrite Rabs_Ropp in H.
  assert (HH : Rabs (f 0) < Rabs (f 0)).
  { apply H. split.
    - unfold D_x, no_cond. split; [exact I|lra].
    - rewrite Rabs_right; lra. }
  lra.
Qed.

Definition udrop0 (p : list (R * nat)) : list (R * nat) :=
  flat_map (fun a => match snd a with O => [] | S e => [(fst a, e)] end) p.

Lemma ueval_split p t : ueval p t = ucoef p 0 + t * ueval (udrop0 p) t.
Proof.
  induction p as [|[c e] p IH]; simpl; [lra|]. rewrite IH.
  destruct e as [|e]; simpl; [|]; try lra.
Qed.

Lemma ucoef_drop p k : ucoef (udrop0 p) k = ucoef p (S k).
Proof.
  induction p as [|[c e] p IH]; simpl; [lra|].
  destruct e as [|e]; simpl.
  - rewrite IH. lra.
  - rewrite IH. destruct (Nat.eq_dec e k), (Nat.eq_dec (S e) (S k)); try lia; lra.
Qed.

Lemma ueval0 p : ueval p 0 = ucoef p 0.
Proof. rewrite ueval_split. lra. Qed.

Lemma univariate_identity k : forall p, (forall t, ueval p t = 0) -> ucoef p k = 0.
Proof.
  induction k as [|k IH]; intros p H.
  - rewrite <- ueval0. apply H.
  - rewrite <- ucoef_drop. apply IH.
    assert (H0 : forall t, t <> 0 -> ueval (udrop0 p) t = 0).
    { intros t Ht. pose proof (H t) as Ht'. rewrite ueval_split in Ht'.
      rewrite <- ueval0, H in Ht'.
      assert (E : t * ueval (udrop0 p) t = 0) by lra.
      apply Rmult_integral in E. destruct E; [contradiction|assumption]. }
    intros t. destruct (Req_dec t 0) as [->|Ht]; [|auto].
    apply cont_zero_off0; [apply ueval_continuous|exact H0].
Qed.

(** ** Multivariate identity theorem *)
Definition slice (k : nat) (p : rpoly) : rpoly :=
  flat_map (fun t => match snd t with
                     | e :: m => if Nat.eq_dec e k then [(fst t, m)] else []
                     | [] => [] end) p.

Lemma coef_slice k m p : coef (slice k p) m = coef p (k :: m).
Proof.
  induction p as [|[c mm] p IH]; simpl; [lra|].
  destruct mm as [|e mm]; simpl.
  - rewrite IH. destruct (mono_eq_dec [] (k :: m)); [discriminate|lra].
  - destruct (Nat.eq_dec e k) as [->|Hne]; simpl.
    + rewrite IH. destruct (mono_eq_dec mm m) as [->|Hm].
      * destruct (mono_eq_dec (k :: m) (k :: m)) as [E|E]; [lra|congruence].
      * destruct (mono_eq_dec (k :: mm) (k :: m)) as [E|E]; [congruence|lra].
    + rewrite IH. destruct (mono_eq_dec (e :: mm) (k :: m)); [congruence|lra].
Qed.

Definition first_var (p : rpoly) (w : point) : list (R * nat) :=
  map (fun t => match snd t with
                | e :: m => (fst t * meval m w, e)
                | [] => (fst t, 0%nat) end) p.

Definition cons_pt (t : R) (w : point) : point := fun i => match i with O => t | S j => w j end.

Lemma reval_first_var p t w : reval p (cons_pt t w) = ueval (first_var p w) t.
Proof.
  induction p as [|[c m] p IH]; simpl; [reflexivity|]. rewrite IH. f_equal.
  destruct m as [|e m]; simpl; [unfold meval; simpl; lra|].
  rewrite meval_cons. simpl.
  replace (meval m (fun j : nat => w j)) with (meval m w) by reflexivity. ring.
Qed.

Lemma ucoef_first_var k p w : Forall (fun t => snd t <> []) p ->
  ucoef (first_var p w) k = reval (slice k p) w.
Proof.
  induction p as [|[c m] p IH]; intros Hne; simpl; [reflexivity|].
  inversion Hne as [|? ? Hm Hp]; subst. specialize (IH Hp).
  destruct m as [|e m]; [simpl in Hm; congruence|]. simpl.
  destruct (Nat.eq_dec e k); simpl; rewrite IH; lra.
Qed.

Theorem poly_identity d : forall p, Forall (fun t => length (snd t) = d) p ->
  (forall v, reval p v = 0) -> forall m, length m = d -> coef p m = 0.
Proof.
  induction d as [|d IH]; intros p Hlen Hz m Hm.
  - destruct m; [|discriminate]. rewrite <- (Hz (fun _ => 0)).
    clear Hz. induction p as [|[c mm] p IHp]; simpl; [reflexivity|].
    inversion Hlen as [|? ? H1 H2]; subst. simpl in H1.
    destruct mm; [|discriminate]. rewrite IHp by assumption.
    destruct (mono_eq_dec [] []); [|congruence]. unfold meval; simpl. lra.
  - destruct m as [|k m]; [discriminate|]. injection Hm as Hm.
    rewrite <- coef_slice. apply IH; [| |exact Hm].
    + unfold slice. apply Forall_flat_map. apply Forall_forall. intros [c mm] Hin.
      rewrite Forall_forall in Hlen. specialize (Hlen _ Hin). simpl in *.
      destruct mm as [|e mm]; [constructor|].
      destruct (Nat.eq_dec e k); constructor; simpl in *; [lia|constructor].
    + intros w. rewrite <- ucoef_first_var.
      * apply univariate_identity. intros t. rewrite <- reval_first_var. apply Hz.
      * apply Forall_impl with (2 := Hlen). intros [c mm] E HH. simpl in *. subst. discriminate.
Qed.

(** ** Linear combinations of polynomials *)
Fixpoint rlincomb (cs : list R) (ps : list rpoly) : rpoly :=
  match cs, ps with
  | c :: cs', p :: ps' => rscale c p ++ rlincomb cs' ps'
  | _, _ => []
  end.

Lemma reval_rlincomb cs : forall ps v,
  reval (rlincomb cs ps) v = lincomb cs (map reval ps) v.
Proof.
  induction cs as [|c cs IH]; intros [|p ps] v; simpl; try reflexivity.
  rewrite reval_app, reval_rscale, IH. reflexivity.
Qed.

Lemma Forall_rscale (Q : mono -> Prop) c p :
  Forall (fun t => Q (snd t)) p -> Forall (fun t => Q (snd t)) (rscale c p).
Proof. unfold rscale; rewrite !Forall_forall. intros H t Ht. apply in_map_iff in Ht.
  destruct Ht as [u [<- Hu]]. simpl. auto. Qed.

Lemma Forall_rlincomb (Q : mono -> Prop) cs : forall ps,
  Forall (Forall (fun t => Q (snd t))) ps -> Forall (fun t => Q (snd t)) (rlincomb cs ps).
Proof.
  induction cs as [|c cs IH]; intros [|p ps] H; simpl; try constructor.
  inversion H; subst. apply Forall_app. split; [apply Forall_rscale; assumption|apply IH; assumption].
Qed.

Definition rcoefcomb (cs : list R) (ps : list rpoly) (m : mono) : R :=
  coef (rlincomb cs ps) m.

Lemma lincomb_ext cs : forall fs gs v, map (fun f : sfun => f v) fs = map (fun f : sfun => f v) gs ->
  lincomb cs fs v = lincomb cs gs v.
Proof.
  induction cs as [|c cs IH]; intros [|f fs] [|g gs] v H; simpl in *; try reflexivity; try discriminate.
  injection H as H1 H2. rewrite H1. f_equal. apply IH. exact H2.
Qed.

Definition rmono (m : mono) : rpoly := [(1, m)].
Lemma reval_rmono m v : reval (rmono m) v = meval m v.
Proof. unfold rmono; simpl; lra. Qed.

(** Pairwise different monomials in [d] variables are independent functions. *)
Lemma coef_rlincomb_notin cs : forall ms m, ~ In m ms -> coef (rlincomb cs (map rmono ms)) m = 0.
Proof.
  induction cs as [|c cs IH]; intros [|a ms] m H; simpl in *; try reflexivity.
  destruct (mono_eq_dec a m) as [->|Hne]; [exfalso; apply H; left; reflexivity|].
  rewrite IH; [lra|]. intros Hin. apply H. right; exact Hin.
Qed.

Lemma coef_rlincomb_all0 : forall cs ms, NoDup ms -> length cs = length ms ->
  (forall m, In m ms -> coef (rlincomb cs (map rmono ms)) m = 0) -> Forall (fun c => c = 0) cs.
Proof.
  induction cs as [|c cs IH]; intros [|a ms] Hnd Hlen H; try discriminate; constructor.
  - inversion Hnd; subst. specialize (H a (or_introl eq_refl)). simpl in H.
    destruct (mono_eq_dec a a); [|congruence].
    rewrite coef_rlincomb_notin in H by assumption. lra.
  - inversion Hnd; subst. apply (IH ms); [assumption|simpl in Hlen; lia|].
    intros m Hm. specialize (H m (or_intror Hm)). simpl in H.
    destruct (mono_eq_dec a m) as [->|Hne]; [contradiction|]. lra.
Qed.

Lemma monomials_independent d ms : NoDup ms -> Forall (fun m => length m = d) ms ->
  independent (map meval ms).
Proof.
  intros Hnd Hlen cs Hcs Hz. rewrite map_length in Hcs.
  apply (coef_rlincomb_all0 cs ms Hnd Hcs).
  intros m Hm. apply (poly_identity d).
  - apply Forall_rlincomb with (Q := fun m => length m = d).
    rewrite Forall_forall in *. intros p Hp. apply in_map_iff in Hp. destruct Hp as [a [<- Ha]].
    constructor; [simpl; auto|constructor].
  - intros v. rewrite reval_rlincomb, <- (Hz v). apply lincomb_ext.
    rewrite !map_map. apply map_ext. intros a. apply reval_rmono.
  - rewrite Forall_forall in Hlen. auto.
Qed.

Lemma lincomb_zero n : forall fs v, lincomb (repeat 0 n) fs v = 0.
Proof. induction n as [|n IH]; intros [|f fs] v; simpl; try reflexivity. rewrite IH; lra. Qed.

Lemma lincomb_add cs : forall ds fs v, length cs = length ds ->
  lincomb (map (fun p => fst p + snd p) (combine cs ds)) fs v = lincomb cs fs v + lincomb ds fs v.
Proof.
  induction cs as [|c cs IH]; intros [|d ds] [|f fs] v H; simpl in *; try discriminate; try lra.
  rewrite IH by lia. lra.
Qed.

Lemma lincomb_scale a cs : forall fs v, lincomb (map (Rmult a) cs) fs v = a * lincomb cs fs v.
Proof.
  induction cs as [|c cs IH]; intros [|f fs] v; simpl; try lra. rewrite IH. lra.
Qed.

Lemma in_span_member fs f : In f fs -> in_span fs f.
Proof.
  induction fs as [|g fs IH]; intros H; [contradiction|]. destruct H as [->|H].
  - exists (1 :: repeat 0 (length fs)). split; [simpl; rewrite repeat_length; reflexivity|].
    intros v. simpl. rewrite lincomb_zero. lra.
  - destruct (IH H) as [cs [Hl Hv]]. exists (0 :: cs). split; [simpl; lia|].
    intros v. simpl. rewrite Hv. lra.
Qed.

Lemma in_span_add fs f g : in_span fs f -> in_span fs g -> in_span fs (fun v => f v + g v).
Proof.
  intros [cs [Hc Hcv]] [ds [Hd Hdv]].
  exists (map (fun p => fst p + snd p) (combine cs ds)). split.
  - rewrite map_length, combine_length. lia.
  - intros v. rewrite lincomb_add by lia. rewrite Hcv, Hdv. reflexivity.
Qed.

Lemma in_span_scale fs a f : in_span fs f -> in_span fs (fun v => a * f v).
Proof.
  intros [cs [Hc Hcv]]. exists (map (Rmult a) cs). split; [rewrite map_length; exact Hc|].
  intros v. rewrite lincomb_scale, Hcv. reflexivity.
Qed.

Lemma in_span_zero fs : in_span fs (fun _ => 0).
Proof. exists (repeat 0 (length fs)). split; [apply repeat_length|]. intros v. rewrite lincomb_zero; reflexivity. Qed.

Lemma in_span_ext fs f g : (forall v, f v = g v) -> in_span fs f -> in_span fs g.
Proof. intros H [cs [Hc Hv]]. exists cs. split; [exact Hc|]. intros v. rewrite <- H. apply Hv. Qed.

Lemma monomials_span (ok : mono -> Prop) ms : (forall m, ok m -> In m ms) ->
  forall f, poly_space ok f -> in_span (map meval ms) f.
Proof.
  intros Hok f [p [Hp Hf]]. apply in_span_ext with (f := reval p); [intros; symmetry; apply Hf|].
  clear f Hf. induction p as [|[c m] p IH]; [apply in_span_zero|].
  inversion Hp; subst. simpl in *.
  apply (in_span_add _ (fun v => c * meval m v) (reval p)); [|apply IH; assumption].
  apply in_span_scale. apply in_span_member. apply in_map. apply Hok. assumption.
Qed.

(** The two halves together: an enumeration without repetition of the
    monomials satisfying [ok] is a basis of the corresponding space. *)
Lemma monomial_basis d (ok : mono -> Prop) ms :
  NoDup ms -> (forall m, In m ms <-> ok m) -> (forall m, ok m -> length m = d) ->
  is_basis (map meval ms) (poly_space ok).
Proof.
  intros Hnd Hin Hlen. split; [|split].
  - apply (monomials_independent d); [exact Hnd|]. apply Forall_forall. intros m Hm. apply Hlen, Hin, Hm.
  - intros f Hf. apply in_map_iff in Hf. destruct Hf as [m [<- Hm]].
    exists [(1, m)]. split; [constructor; [simpl; apply Hin; exact Hm|constructor]|].
    intros v; simpl; lra.
  - apply monomials_span. intros m Hm. apply Hin. exact Hm.
Qed.
