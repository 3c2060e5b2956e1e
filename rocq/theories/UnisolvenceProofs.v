(** Interpolation on lower sets of lattices: the monomials of a set of exponents closed under lowering are
    unisolvent on the lattice points with the same indices.  Proved with divided differences. *)
From Coq Require Import List Arith Reals Lia Lra.
From Verif Require Import Base PolyLib.
Import ListNotations.
Open Scope R_scope.

(** * Divided differences on the nodes q s, ..., q (s + a) *)
Fixpoint dd (q : nat -> R) (a s : nat) (f : R -> R) : R :=
  match a with
  | O => f (q s)
  | S a' => (dd q a' (S s) f - dd q a' s f) / (q (s + S a')%nat - q s)
  end.

Definition distinct_upto (q : nat -> R) (n : nat) : Prop :=
  forall i j, (i < j <= n)%nat -> q i <> q j.

Lemma dd_ext q f g : forall a s, (forall i, (s <= i <= s + a)%nat -> f (q i) = g (q i)) -> dd q a s f = dd q a s g.
Proof.
  induction a as [|a IH]; intros s H; simpl; [apply H; lia|].
  rewrite (IH (S s)), (IH s); [reflexivity| |]; intros i Hi; apply H; lia.
Qed.

Lemma dd_lin q (u v : R) f g : forall a s, dd q a s (fun x => u * f x + v * g x) = u * dd q a s f + v * dd q a s g.
Proof. induction a as [|a IH]; intros s; simpl; [reflexivity|]. rewrite !IH. unfold Rdiv. ring. Qed.

Lemma dd_zero q : forall a s, dd q a s (fun _ => 0) = 0.
Proof. induction a as [|a IH]; intros s; simpl; [reflexivity|]. rewrite !IH. unfold Rdiv. ring. Qed.

Lemma dd_scal q u f a s : dd q a s (fun x => u * f x) = u * dd q a s f.
Proof.
  rewrite (dd_ext q _ (fun x => u * f x + 0 * f x)) by (intros; ring). rewrite dd_lin. ring.
Qed.

(** product with the variable *)
Lemma dd_x q n f : distinct_upto q n -> forall a s, (s + S a <= n)%nat ->
  dd q (S a) s (fun x => x * f x) = q s * dd q (S a) s f + dd q a (S s) f /\
  dd q (S a) s (fun x => x * f x) = q (s + S a)%nat * dd q (S a) s f + dd q a s f.
Proof.
  intros Hq. induction a as [|a IH]; intros s H.
  - simpl. assert (q s <> q (s + 1)%nat) by (apply Hq; lia). replace (S s) with (s + 1)%nat by lia.
    split; field; lra.
  - assert (D : q s <> q (s + S (S a))%nat) by (apply Hq; lia).
    destruct (IH s ltac:(lia)) as [L1 _]. destruct (IH (S s) ltac:(lia)) as [_ R2].
    change (dd q (S (S a)) s (fun x => x * f x)) with
      ((dd q (S a) (S s) (fun x => x * f x) - dd q (S a) s (fun x => x * f x)) / (q (s + S (S a))%nat - q s)).
    change (dd q (S (S a)) s f) with ((dd q (S a) (S s) f - dd q (S a) s f) / (q (s + S (S a))%nat - q s)).
    rewrite L1, R2. replace (S s + S a)%nat with (s + S (S a))%nat by lia.
    set (A := dd q (S a) (S s) f). set (B := dd q (S a) s f). split; field; lra.
Qed.

Lemma dd_const q n : distinct_upto q n -> forall a s, (s + S a <= n)%nat -> dd q (S a) s (fun x => x ^ 0) = 0.
Proof.
  intros Hq. induction a as [|a IH]; intros s H.
  - simpl. unfold Rdiv. ring.
  - change (dd q (S (S a)) s (fun x => x ^ 0)) with
      ((dd q (S a) (S s) (fun x => x ^ 0) - dd q (S a) s (fun x => x ^ 0)) / (q (s + S (S a))%nat - q s)).
    rewrite (IH (S s)), (IH s) by lia. unfold Rdiv. ring.
Qed.

Lemma dd_pow q n : distinct_upto q n -> forall b a s, (s + a <= n)%nat ->
  ((b < a)%nat -> dd q a s (fun x => x ^ b) = 0) /\ (b = a -> dd q a s (fun x => x ^ b) = 1).
Proof.
  intros Hq. induction b as [|b IH]; intros a s H.
  - split; [intros Hb; destruct a; [lia|apply (dd_const q n Hq); lia]|intros <-; reflexivity].
  - destruct a as [|a]; [split; intros; lia|].
    assert (E : dd q (S a) s (fun x => x ^ S b) = q s * dd q (S a) s (fun x => x ^ b) + dd q a (S s) (fun x => x ^ b)).
    { exact (proj1 (dd_x q n (fun x => x ^ b) Hq a s H)). }
    destruct (IH (S a) s ltac:(lia)) as [Z1 _]. destruct (IH a (S s) ltac:(lia)) as [Z2 O2].
    split; intros Hb; rewrite E, Z1 by lia.
    + rewrite Z2 by lia. ring.
    + rewrite O2 by lia. ring.
Qed.

(** * Several variables *)
Fixpoint mv (m : mono) (p : list R) : R :=
  match m, p with e :: m', x :: p' => x ^ e * mv m' p' | _, _ => 1 end.

(** lattice point of index m: coordinate j is the node q j (m_j) *)
Fixpoint lattice (q : list (nat -> R)) (m : mono) : list R :=
  match q, m with f :: q', a :: m' => f a :: lattice q' m' | _, _ => [] end.

(** componentwise order *)
Inductive mle : mono -> mono -> Prop :=
| mle_nil : mle [] []
| mle_cons : forall a b m m', (a <= b)%nat -> mle m m' -> mle (a :: m) (b :: m').

Lemma mle_length m m' : mle m m' -> length m = length m'.
Proof. induction 1; simpl; lia. Qed.
Lemma mle_refl m : mle m m.
Proof. induction m; constructor; auto. Qed.
Lemma mle_deg m m' : mle m m' -> (mdeg m <= mdeg m')%nat /\ (mdeg m = mdeg m' -> m = m').
Proof.
  induction 1 as [|a b m m' H _ [IH1 IH2]]; simpl; [split; auto|]. split; [lia|].
  intros E. assert (a = b) by lia. subst. f_equal. apply IH2. lia.
Qed.

Fixpoint mdd (q : list (nat -> R)) (m : mono) (f : list R -> R) : R :=
  match q, m with
  | g :: q', a :: m' => dd g a 0 (fun x => mdd q' m' (fun p => f (x :: p)))
  | _, _ => f []
  end.

Lemma mdd_ext q : forall m f g, length m = length q -> (forall m', mle m' m -> f (lattice q m') = g (lattice q m')) ->
  mdd q m f = mdd q m g.
Proof.
  induction q as [|h q IH]; intros [|a m] f g L H; simpl in *; try discriminate; [apply (H []); constructor|].
  apply dd_ext. intros i Hi. apply IH; [lia|]. intros m' Hm.
  apply (H (i :: m')). constructor; [lia|exact Hm].
Qed.

Lemma mdd_lin q : forall m u v f g, mdd q m (fun p => u * f p + v * g p) = u * mdd q m f + v * mdd q m g.
Proof.
  induction q as [|h q IH]; intros [|a m] u v f g; simpl; try reflexivity.
  rewrite <- dd_lin. apply dd_ext. intros i _. apply (IH m u v (fun p => f (h i :: p))).
Qed.

Lemma mdd_zero q m : length m = length q -> mdd q m (fun _ => 0) = 0.
Proof.
  revert m. induction q as [|h q IH]; intros [|a m] L; simpl in *; try discriminate; [reflexivity|].
  rewrite (dd_ext h _ (fun _ => 0)); [apply dd_zero|]. intros. apply IH. lia.
Qed.

Lemma mdd_scal q m u f : length m = length q -> mdd q m (fun p => u * f p) = u * mdd q m f.
Proof.
  intros L. rewrite (mdd_ext q m _ (fun p => u * f p + 0 * f p)) by (auto; intros; ring). rewrite mdd_lin. ring.
Qed.

Definition fit (q : list (nat -> R)) (m : mono) : Prop :=
  Forall2 (fun f a => distinct_upto f a) q m.

Lemma mdd_mono q : forall m b, fit q m -> length b = length q ->
  (~ mle m b -> mdd q m (mv b) = 0) /\ (b = m -> mdd q m (mv b) = 1).
Proof.
  induction q as [|h q IH]; intros m b F L.
  - inversion F; subst. destruct b; [|discriminate]. simpl. split; [|reflexivity]. intros H; destruct H; constructor.
  - inversion F as [|? a ? m' Ha Hm E1 E2]; subst. destruct b as [|e b]; [discriminate|].
    simpl in L. destruct (IH m' b Hm ltac:(lia)) as [Z O].
    assert (Lm : length m' = length q) by (clear - Hm; induction Hm; simpl; lia).
    assert (E : mdd (h :: q) (a :: m') (mv (e :: b)) = mdd q m' (mv b) * dd h a 0 (fun x => x ^ e)).
    { simpl. rewrite <- dd_scal. apply dd_ext. intros i _. rewrite mdd_scal by exact Lm. ring. }
    destruct (dd_pow h a Ha e a 0%nat ltac:(lia)) as [Zd Od]. rewrite E. split.
    + intros N. destruct (lt_dec e a) as [Hl|Hl]; [rewrite Zd by exact Hl; ring|].
      rewrite Z; [ring|]. intros M. apply N. constructor; [lia|exact M].
    + intros E'. injection E' as -> ->. rewrite Od, O by reflexivity. ring.
Qed.

Definition ev (c : mono -> R) (S : list mono) (p : list R) : R :=
  fold_right (fun m acc => c m * mv m p + acc) 0 S.

Lemma mdd_ev q m c S : length m = length q ->
  mdd q m (ev c S) = fold_right (fun b acc => c b * mdd q m (mv b) + acc) 0 S.
Proof.
  intros L. induction S as [|b S IH]; [apply mdd_zero; exact L|].
  change (ev c (b :: S)) with (fun p => c b * mv b p + ev c S p).
  rewrite (mdd_ext q m _ (fun p => c b * mv b p + 1 * ev c S p)) by (auto; intros; ring).
  rewrite mdd_lin, IH. simpl. ring.
Qed.

Lemma fold_zero (f : mono -> R) : forall S, (forall b, In b S -> f b = 0) -> fold_right (fun b acc => f b + acc) 0 S = 0.
Proof.
  induction S as [|b S IH]; intros H; [reflexivity|]. simpl. rewrite H, IH; [ring| |left; reflexivity].
  intros d Hd. apply H. right; exact Hd.
Qed.

Lemma pick c (w : mono -> R) m : forall S, NoDup S -> In m S -> w m = 1 -> (forall b, In b S -> b <> m -> c b * w b = 0) ->
  fold_right (fun b acc => c b * w b + acc) 0 S = c m.
Proof.
  induction S as [|b S IH]; intros ND I W H; [destruct I|]. inversion ND as [|? ? NI ND']; subst. simpl.
  destruct I as [<-|I].
  - rewrite W. assert (Z : fold_right (fun b acc => c b * w b + acc) 0 S = 0).
    { apply (fold_zero (fun b => c b * w b)). intros d Hd. apply H; [right; exact Hd|intros ->; contradiction]. }
    rewrite Z. ring.
  - rewrite IH; auto.
    + rewrite H; [ring|left; reflexivity|intros ->; contradiction].
    + intros d Hd. apply H. right; exact Hd.
Qed.

(** The general theorem. *)
Theorem lower_set_unisolvent q (S : list mono) c :
  NoDup S -> (forall m, In m S -> fit q m) -> (forall m b, In m S -> mle b m -> In b S) ->
  (forall m, In m S -> ev c S (lattice q m) = 0) -> forall m, In m S -> c m = 0.
Proof.
  intros ND F D H.
  assert (B : exists M, forall m, In m S -> (mdeg m <= M)%nat).
  { clear. induction S as [|a S [M HM]]; [exists 0%nat; intros m []|].
    exists (mdeg a + M)%nat. intros m [<-|I]; [lia|]. specialize (HM m I). lia. }
  destruct B as [M HM].
  assert (Len : forall m, In m S -> length m = length q).
  { intros m I. specialize (F m I). clear - F. induction F; simpl; lia. }
  assert (G : forall k m, In m S -> (M - mdeg m < k)%nat -> c m = 0).
  { induction k as [|k IH]; intros m I Hk; [lia|].
    assert (E : mdd q m (ev c S) = 0).
    { rewrite (mdd_ext q m _ (fun _ => 0)); [apply mdd_zero; auto|auto|].
      intros b Hb. apply H. exact (D m b I Hb). }
    rewrite mdd_ev in E by auto.
    rewrite (pick c (fun b => mdd q m (mv b)) m S ND I) in E; [exact E| |].
    - apply (proj2 (mdd_mono q m m (F m I) (Len m I))). reflexivity.
    - intros b Ib Nb. destruct (mdd_mono q m b (F m I) (Len b Ib)) as [Z _].
      assert (X : mle m b \/ ~ mle m b).
      { clear - m. revert b. induction m as [|x m IHm]; intros [|y b].
        - left; constructor.
        - right; intros E; inversion E.
        - right; intros E; inversion E.
        - destruct (le_dec x y); [destruct (IHm b); [left; constructor; auto|]|];
          right; intros E; inversion E; contradiction. }
      destruct X as [X|X]; [|rewrite Z by exact X; ring].
      destruct (mle_deg m b X) as [Y1 Y2].
      assert (mdeg m <> mdeg b) by (intros Eq; apply Nb; symmetry; exact (Y2 Eq)).
      rewrite (IH b Ib); [ring|]. specialize (HM b Ib). lia. }
  intros m I. apply (G (Datatypes.S (M - mdeg m)) m I). lia.
Qed.

Lemma meval_from_mv m : forall i p (v : point), length m = length p -> (forall j, (j < length p)%nat -> v (i + j)%nat = nth j p 0) ->
  meval_from i m v = mv m p.
Proof.
  induction m as [|e m IH]; intros i [|x p] v L H; simpl in *; try discriminate; [reflexivity|].
  pose proof (H 0%nat ltac:(lia)) as H0. rewrite Nat.add_0_r in H0. rewrite H0. simpl. f_equal.
  apply IH; [lia|]. intros j Hj. specialize (H (S j) ltac:(lia)). rewrite <- H. f_equal. lia.
Qed.
Lemma meval_mv m p : length m = length p -> meval m (fun i => nth i p 0) = mv m p.
Proof. intros L. apply meval_from_mv; auto. Qed.

(** * Spaces of polynomials and affine substitutions *)
Fixpoint madd (a b : mono) : mono :=
  match a, b with x :: a', y :: b' => (x + y)%nat :: madd a' b' | _, _ => [] end.
Lemma madd_length a : forall b, length a = length b -> length (madd a b) = length a.
Proof. induction a as [|x a IH]; intros [|y b] L; simpl in *; try discriminate; [reflexivity|]. rewrite IH; lia. Qed.
Lemma madd_deg a : forall b, length a = length b -> mdeg (madd a b) = (mdeg a + mdeg b)%nat.
Proof. induction a as [|x a IH]; intros [|y b] L; simpl in *; try discriminate; [reflexivity|]. rewrite IH; lia. Qed.
Lemma meval_from_madd a : forall b i v, length a = length b ->
  meval_from i (madd a b) v = meval_from i a v * meval_from i b v.
Proof.
  induction a as [|x a IH]; intros [|y b] i v L; simpl in *; try discriminate; [ring|].
  rewrite IH by lia. rewrite pow_add. ring.
Qed.
Lemma meval_zeros k v : meval (repeat 0%nat k) v = 1.
Proof. unfold meval. generalize 0%nat at 1 as i. induction k as [|k IH]; intros i; simpl; [reflexivity|]. rewrite IH. ring. Qed.
Lemma mdeg_zeros k : mdeg (repeat 0%nat k) = 0%nat.
Proof. induction k; simpl; auto. Qed.

(** functions of d variables given by polynomials of total degree at most n *)
Definition degree_space (d n : nat) : sfun -> Prop := poly_space (fun m => length m = d /\ (mdeg m <= n)%nat).

Lemma poly_space_ext ok f g : (forall v, f v = g v) -> poly_space ok f -> poly_space ok g.
Proof. intros E (p & Hp & H). exists p. split; [exact Hp|]. intros v. rewrite <- E. apply H. Qed.
Lemma poly_space_add ok f g : poly_space ok f -> poly_space ok g -> poly_space ok (fun v => f v + g v).
Proof.
  intros (p & Hp & H) (q & Hq & H'). exists (p ++ q). split; [apply Forall_app; auto|].
  intros v. rewrite reval_app, H, H'. reflexivity.
Qed.
Lemma poly_space_scale ok c f : poly_space ok f -> poly_space ok (fun v => c * f v).
Proof.
  intros (p & Hp & H). exists (rscale c p). split; [|intros v; rewrite reval_rscale, H; reflexivity].
  unfold rscale. apply Forall_forall. intros t Ht. apply in_map_iff in Ht. destruct Ht as (u & <- & Hu).
  simpl. rewrite Forall_forall in Hp. apply Hp. exact Hu.
Qed.
Lemma poly_space_zero ok : poly_space ok (fun _ => 0).
Proof. exists []. split; [constructor|reflexivity]. Qed.
Lemma poly_space_mono (ok : mono -> Prop) m : ok m -> poly_space ok (meval m).
Proof. intros H. exists [(1, m)]. split; [repeat constructor; exact H|]. intros v. simpl. ring. Qed.
Lemma poly_space_weaken (ok ok' : mono -> Prop) f : (forall m, ok m -> ok' m) -> poly_space ok f -> poly_space ok' f.
Proof. intros W (p & Hp & H). exists p. split; [|exact H]. eapply Forall_impl; [|exact Hp]. intros t. apply W. Qed.

Lemma degree_const d n c : degree_space d n (fun _ => c).
Proof.
  apply (poly_space_ext _ (fun v => c * meval (repeat 0%nat d) v)); [intros v; rewrite meval_zeros; ring|].
  apply poly_space_scale, poly_space_mono. rewrite repeat_length, mdeg_zeros. split; [reflexivity|lia].
Qed.
Lemma degree_mul d n k f g : degree_space d n f -> degree_space d k g -> degree_space d (n + k) (fun v => f v * g v).
Proof.
  intros (p & Hp & H) (q & Hq & H').
  apply (poly_space_ext _ (fun v => reval p v * reval q v)); [intros v; rewrite H, H'; reflexivity|]. clear f g H H'.
  induction p as [|[c m] p IH]; simpl.
  - apply (poly_space_ext _ (fun _ => 0)); [intros; ring|apply poly_space_zero].
  - apply Forall_cons_iff in Hp. destruct Hp as [[L D] Hp']. simpl in L, D.
    apply (poly_space_ext _ (fun v => c * (meval m v * reval q v) + reval p v * reval q v)); [intros v; ring|].
    apply poly_space_add; [|apply IH; exact Hp']. apply poly_space_scale. clear IH Hp' p c.
    induction q as [|[c b] q IH]; simpl.
    + apply (poly_space_ext _ (fun _ => 0)); [intros; ring|apply poly_space_zero].
    + apply Forall_cons_iff in Hq. destruct Hq as [[Lb Db] Hq']. simpl in Lb, Db.
      apply (poly_space_ext _ (fun v => c * meval (madd m b) v + meval m v * reval q v)).
      { intros v. unfold meval. rewrite meval_from_madd by congruence. ring. }
      apply poly_space_add; [|apply IH; exact Hq']. apply poly_space_scale, poly_space_mono.
      rewrite madd_length, madd_deg by congruence. split; [congruence|lia].
Qed.
Lemma degree_pow d n f : degree_space d n f -> forall e, degree_space d (e * n) (fun v => f v ^ e).
Proof.
  intros H. induction e as [|e IH]; simpl; [apply degree_const|]. apply (degree_mul d n (e * n) f _ H IH).
Qed.
Lemma degree_weaken d n k f : (n <= k)%nat -> degree_space d n f -> degree_space d k f.
Proof. intros L. apply poly_space_weaken. intros m [H1 H2]. split; [exact H1|lia]. Qed.

Lemma degree_var d i : (i < d)%nat -> degree_space d 1 (fun v => v i).
Proof.
  intros H. set (m := map (fun j => if Nat.eq_dec j i then 1%nat else 0%nat) (seq 0 d)).
  apply (poly_space_ext _ (meval m)).
  - intros v. unfold meval, m.
    assert (G : forall d s, (s <= i < s + d)%nat ->
      meval_from s (map (fun j => if Nat.eq_dec j i then 1%nat else 0%nat) (seq s d)) v = v i).
    { induction d0 as [|k IH]; intros s Hs; [lia|]. simpl. destruct (Nat.eq_dec s i) as [->|N].
      - assert (Z : forall k s, (i < s)%nat -> meval_from s (map (fun j => if Nat.eq_dec j i then 1%nat else 0%nat) (seq s k)) v = 1).
        { induction k0 as [|k' IH']; intros s' Hs'; [reflexivity|]. simpl. destruct (Nat.eq_dec s' i); [lia|]. rewrite IH' by lia. simpl. ring. }
        rewrite Z by lia. simpl. ring.
      - rewrite IH by lia. simpl. ring. }
    apply G. lia.
  - apply poly_space_mono. unfold m. rewrite map_length, seq_length. split; [reflexivity|].
    assert (G : forall d s, (mdeg (map (fun j => if Nat.eq_dec j i then 1%nat else 0%nat) (seq s d)) <= if le_dec s i then 1 else 0)%nat).
    { induction d0 as [|k IH]; intros s; simpl; [destruct (le_dec s i); lia|].
      specialize (IH (S s)). destruct (Nat.eq_dec s i), (le_dec (S s) i), (le_dec s i); lia. }
    specialize (G d 0%nat). destruct (le_dec 0 i); lia.
Qed.

(** substituting polynomials of degree at most one for the variables *)
Lemma degree_subst d n k f (a : nat -> sfun) :
  degree_space d n f -> (forall j, (j < d)%nat -> degree_space k 1 (a j)) ->
  degree_space k n (fun w => f (fun j => a j w)).
Proof.
  intros (p & Hp & H) Ha.
  apply (poly_space_ext _ (fun w => reval p (fun j => a j w))); [intros w; rewrite H; reflexivity|]. clear f H.
  induction p as [|[c m] p IH]; simpl; [apply poly_space_zero|].
  apply Forall_cons_iff in Hp. destruct Hp as [[L D] Hp']. simpl in L, D. apply poly_space_add; [|apply IH; exact Hp'].
  apply poly_space_scale. apply (degree_weaken k (mdeg m)); [exact D|]. unfold meval. subst d. clear - Ha.
  assert (G : forall i, (forall j, (i <= j < i + length m)%nat -> degree_space k 1 (a j)) ->
    degree_space k (mdeg m) (fun w => meval_from i m (fun j => a j w))).
  { clear Ha. induction m as [|e m IH]; intros i Hi; simpl; [apply degree_const|].
    apply degree_mul; [|apply IH; intros j Hj; apply Hi; simpl; lia].
    rewrite <- (Nat.mul_1_r e) at 1. apply degree_pow. apply Hi. simpl. lia. }
  apply G. intros j Hj. apply Ha. simpl in Hj. lia.
Qed.

(** * Functions vanishing on a lattice *)
Lemma reval_coefs S p v : NoDup S -> Forall (fun t => In (snd t) S) p ->
  reval p v = fold_right (fun m acc => coef p m * meval m v + acc) 0 S.
Proof.
  intros ND H. induction p as [|[c b] p IH]; simpl.
  - rewrite (fold_zero (fun m => 0 * meval m v)); [reflexivity|intros; ring].
  - inversion H as [|? ? Hb Hp]; subst. simpl in Hb. rewrite IH by exact Hp. clear IH.
    set (g := fun m => (if mono_eq_dec b m then c else 0)).
    assert (E : fold_right (fun m acc => (g m + coef p m) * meval m v + acc) 0 S =
                fold_right (fun m acc => g m * meval m v + acc) 0 S + fold_right (fun m acc => coef p m * meval m v + acc) 0 S).
    { clear. induction S as [|m S IH]; simpl; [ring|]. rewrite IH. ring. }
    unfold g in E at 1. rewrite E. f_equal.
    clear - ND Hb. induction S as [|m S IH]; [destruct Hb|]. inversion ND as [|? ? NI ND']; subst. simpl.
    destruct Hb as [->|Hb].
    + rewrite (fold_zero (fun m => g m * meval m v)).
      * unfold g. destruct (mono_eq_dec b b); [ring|congruence].
      * intros m Hm. unfold g. destruct (mono_eq_dec b m); [subst; contradiction|ring].
    + rewrite <- IH by assumption. unfold g. destruct (mono_eq_dec b m); [subst; contradiction|ring].
Qed.

Definition as_point (p : list R) : point := fun i => nth i p 0.

Theorem lower_space_zero q (ok : mono -> Prop) (S : list mono) f :
  NoDup S -> (forall m, In m S <-> ok m) -> (forall m, ok m -> fit q m) -> (forall m b, ok m -> mle b m -> ok b) ->
  poly_space ok f -> (forall m, ok m -> f (as_point (lattice q m)) = 0) -> forall v, f v = 0.
Proof.
  intros ND HS HF HL (p & Hp & E) Z v.
  assert (Hp' : Forall (fun t => In (snd t) S) p) by (eapply Forall_impl; [|exact Hp]; intros t Ht; apply HS; exact Ht).
  assert (Len : forall m, ok m -> length m = length q).
  { intros m Hm. specialize (HF m Hm). clear - HF. induction HF; simpl; lia. }
  assert (C : forall m, In m S -> coef p m = 0).
  { apply (lower_set_unisolvent q S (coef p) ND).
    - intros m Hm. apply HF, HS, Hm.
    - intros m b Hm Hb. apply HS. apply (HL m b); [apply HS; exact Hm|exact Hb].
    - intros m Hm. apply HS in Hm. specialize (Z m Hm). rewrite E, (reval_coefs S p _ ND Hp') in Z. rewrite <- Z.
      unfold ev. clear - Len HS Hm. assert (K : forall b, In b S -> length b = length (lattice q m)).
      { intros b Hb. rewrite (Len b) by (apply HS; exact Hb).
        assert (G : length (lattice q m) = length q); [|lia]. specialize (Len m Hm). revert m Hm Len. clear.
        intros m _. revert m. induction q as [|h q IH]; intros [|a m] L; simpl in *; try discriminate; [reflexivity|]. rewrite IH; lia. }
      clear HS. induction S as [|b S IH]; simpl; [reflexivity|]. rewrite IH by (intros d Hd; apply K; right; exact Hd).
      unfold as_point. rewrite meval_mv by (apply K; left; reflexivity). reflexivity. }
  rewrite E, (reval_coefs S p v ND Hp'). apply (fold_zero (fun m => coef p m * meval m v)).
  intros b Hb. rewrite C by exact Hb. ring.
Qed.

Lemma nth_repeat_lt {A} (a d : A) n : forall i, (i < n)%nat -> nth i (repeat a n) d = a.
Proof. induction n as [|n IH]; intros [|i] H; simpl; try lia; [reflexivity|]. apply IH. lia. Qed.

(** lists of all exponents *)
Definition box (d n : nat) : list mono := product (repeat (range (n + 1)) d).
Lemma in_box d n m : In m (box d n) <-> length m = d /\ Forall (fun e => (e <= n)%nat) m.
Proof.
  unfold box. etransitivity; [apply in_product|]. rewrite repeat_length. split; intros [L H]; (split; [exact L|]).
  - apply Forall_forall. intros e He. destruct (In_nth m e 0%nat He) as (i & Hi & <-).
    specialize (H i 0%nat ltac:(lia)). rewrite nth_repeat_lt in H by lia. apply in_range in H. lia.
  - intros i k Hi. rewrite nth_repeat_lt by exact Hi. apply in_range.
    rewrite Forall_forall in H. assert (Hi' : (i < length m)%nat) by (rewrite L; exact Hi).
    specialize (H (nth i m k) (nth_In m k Hi')). lia.
Qed.
Lemma NoDup_box d n : NoDup (box d n).
Proof. unfold box. apply NoDup_product. apply Forall_forall. intros l Hl. apply repeat_spec in Hl. subst. apply NoDup_range. Qed.

Lemma mdeg_entry m e : In e m -> (e <= mdeg m)%nat.
Proof. induction m as [|a m IH]; intros []; simpl; [lia|]. specialize (IH H). lia. Qed.

Lemma fit_box q n d m : (forall j, (j < d)%nat -> distinct_upto (nth j q (fun _ => 0)) n) -> length q = d ->
  length m = d -> Forall (fun e => (e <= n)%nat) m -> fit q m.
Proof.
  intros Hq Lq Lm F. assert (L : length q = length m) by congruence. rewrite <- Lm in Hq. clear d Lq Lm. revert q Hq L.
  induction m as [|a m IH]; intros [|h q] Hq L; simpl in *; try discriminate; [constructor|].
  inversion F as [|? ? Ha F']; subst. constructor.
  - intros i j Hij. apply (Hq 0%nat ltac:(lia)). lia.
  - apply IH; auto. intros j Hj. apply (Hq (S j)). lia.
Qed.

Lemma mle_box m b n : mle b m -> Forall (fun e => (e <= n)%nat) m -> Forall (fun e => (e <= n)%nat) b.
Proof. induction 1 as [|x y m m' H _ IH]; intros F; [constructor|]. inversion F; subst. constructor; [lia|auto]. Qed.

(** polynomials of total degree at most n on the simplicial lattice *)
Theorem simplex_lattice_zero q d n f : distinct_upto q n -> degree_space d n f ->
  (forall m, length m = d -> (mdeg m <= n)%nat -> f (as_point (map q m)) = 0) -> forall v, f v = 0.
Proof.
  intros Hq Hf Z.
  apply (lower_space_zero (repeat q d) (fun m => length m = d /\ (mdeg m <= n)%nat)
           (filter (fun m => mdeg m <=? n)%nat (box d n))).
  - apply NoDup_filter, NoDup_box.
  - intros m. rewrite filter_In, in_box, Nat.leb_le. split; [tauto|]. intros [L D]. repeat split; auto.
    apply Forall_forall. intros e He. pose proof (mdeg_entry m e He). lia.
  - intros m [L D]. apply (fit_box _ n d); auto using repeat_length.
    + intros j Hj. rewrite nth_repeat_lt by exact Hj. exact Hq.
    + apply Forall_forall. intros e He. pose proof (mdeg_entry m e He). lia.
  - intros m b [L D] H. pose proof (mle_length b m H). pose proof (mle_deg b m H). split; [congruence|lia].
  - exact Hf.
  - intros m [L D]. replace (lattice (repeat q d) m) with (map q m); [apply Z; assumption|].
    subst d. clear. induction m as [|a m IH]; simpl; [reflexivity|]. f_equal. exact IH.
Qed.

(** polynomials of degree at most n in each variable on the tensor lattice *)
Theorem tensor_lattice_zero q d n f : distinct_upto q n ->
  poly_space (fun m => length m = d /\ Forall (fun e => (e <= n)%nat) m) f ->
  (forall m, length m = d -> Forall (fun e => (e <= n)%nat) m -> f (as_point (map q m)) = 0) -> forall v, f v = 0.
Proof.
  intros Hq Hf Z.
  apply (lower_space_zero (repeat q d) (fun m => length m = d /\ Forall (fun e => (e <= n)%nat) m) (box d n)).
  - apply NoDup_box.
  - intros m. apply in_box.
  - intros m [L F]. apply (fit_box _ n d); auto using repeat_length.
    intros j Hj. rewrite nth_repeat_lt by exact Hj. exact Hq.
  - intros m b [L F] H. pose proof (mle_length b m H). split; [congruence|]. exact (mle_box m b n H F).
  - exact Hf.
  - intros m [L D]. replace (lattice (repeat q d) m) with (map q m); [apply Z; assumption|].
    subst d. clear. induction m as [|a m IH]; simpl; [reflexivity|]. f_equal. exact IH.
Qed.
