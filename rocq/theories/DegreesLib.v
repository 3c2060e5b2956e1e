(** Membership of polynomials in spans, decided by coefficients. *)
From Coq Require Import ZArith Arith Reals Lra Lia List.
From Verif Require Import Base PolyLib PolySetsModel ReferencesModel FamiliesModel DegreesSpec.
Import ListNotations.
Local Open Scope R_scope.

Notation span ps := (vin_span (map veval ps)).
(** the function with the monomial u in the entries s *)
Definition unit (pattern : list nat) (s : nat) (u : mono) : vpoly := map (fun s' => if (s =? s')%nat then [(1%Z, u)] else []) pattern.

Lemma vcomp_veval p i v : vcomp (veval p) i v = zeval (nth i p []) v.
Proof.
  unfold vcomp, veval. destruct (lt_dec i (length p)) as [H|H].
  - rewrite (nth_indep _ 0 (zeval [] v)) by (rewrite map_length; exact H). apply (map_nth (fun q => zeval q v)).
  - rewrite !nth_overflow by (rewrite ?map_length; lia). reflexivity.
Qed.

(** * Closure of spans *)
Lemma span_ext fs (f g : vfun) : (forall i v, vcomp f i v = vcomp g i v) -> vin_span fs f -> vin_span fs g.
Proof. intros H (cs & L & E). exists cs. split; [exact L|]. intros c v. rewrite <- H. apply E. Qed.
Lemma span_zero fs (f : vfun) : (forall i v, vcomp f i v = 0) -> vin_span fs f.
Proof. intros H. exists (repeat 0 (length fs)). split; [apply repeat_length|]. intros c v. rewrite H, lincomb_zero. reflexivity. Qed.
Lemma span_add fs (f g h : vfun) : vin_span fs f -> vin_span fs g -> (forall i v, vcomp h i v = vcomp f i v + vcomp g i v) -> vin_span fs h.
Proof.
  intros (a & La & Ea) (b & Lb & Eb) H. exists (map (fun t => fst t + snd t) (combine a b)).
  split; [rewrite map_length, combine_length; lia|]. intros c v. rewrite H, Ea, Eb.
  rewrite lincomb_add by congruence. reflexivity.
Qed.
Lemma span_scale fs x (f h : vfun) : vin_span fs f -> (forall i v, vcomp h i v = x * vcomp f i v) -> vin_span fs h.
Proof.
  intros (a & La & Ea) H. exists (map (Rmult x) a). split; [rewrite map_length; exact La|].
  intros c v. rewrite H, Ea, lincomb_scale. reflexivity.
Qed.
Lemma span_member fs (f : vfun) : In f fs -> vin_span fs f.
Proof.
  intros H. induction fs as [|g fs IH]; [destruct H|]. destruct H as [->|H].
  - exists (1 :: repeat 0 (length fs)). split; [cbn; rewrite repeat_length; reflexivity|]. intros c v. cbn. rewrite lincomb_zero. lra.
  - destruct (IH H) as (cs & L & E). exists (0 :: cs). split; [cbn; congruence|]. intros c v. cbn. rewrite E. lra.
Qed.
Lemma span_in ps p : In p ps -> span ps (veval p).
Proof. intros H. apply span_member, in_map, H. Qed.

(** * A full space inside a span *)
Definition slot (pattern : list nat) (g : nat -> rpoly) (s : nat) : vfun := fun v => map (fun s' => if (s =? s')%nat then reval (g s) v else 0) pattern.
Lemma nth_map_any {A} (f : A -> R) l i (d : A) : nth i (map f l) 0 = if (i <? length l)%nat then f (nth i l d) else 0.
Proof.
  destruct (Nat.ltb_spec i (length l)) as [H|H].
  - rewrite (nth_indep _ 0 (f d)) by (rewrite map_length; exact H). apply map_nth.
  - apply nth_overflow. rewrite map_length. exact H.
Qed.
Lemma slot_in pattern (L : mono -> Prop) g s ps : (forall u, L u -> span ps (veval (unit pattern s u))) ->
  Forall (fun t => L (snd t)) (g s) -> span ps (slot pattern g s).
Proof.
  intros H F. unfold slot. remember (g s) as p eqn:E. clear E g. induction F as [|[c u] p Hu F IH].
  - apply span_zero. intros i v. unfold vcomp. rewrite (nth_map_any _ _ _ 0%nat). destruct (_ <? _)%nat; [destruct (_ =? _)%nat|]; reflexivity.
  - apply (span_add _ (fun v => map (fun s' => if (s =? s')%nat then c * meval u v else 0) pattern) (fun v => map (fun s' => if (s =? s')%nat then reval p v else 0) pattern)).
    + apply (span_scale _ c (veval (unit pattern s u))); [apply H; exact Hu|]. intros i v. rewrite vcomp_veval. unfold vcomp, unit.
      rewrite (nth_map_any _ _ _ 0%nat). destruct (Nat.ltb_spec i (length pattern)) as [Hi|Hi].
      * rewrite (nth_indep _ [] ((fun s' => if (s =? s')%nat then [(1%Z, u)] else []) 0%nat)) by (rewrite map_length; exact Hi).
        rewrite (map_nth (fun s' => if (s =? s')%nat then [(1%Z, u)] else [])). destruct (_ =? _)%nat; unfold zeval; cbn [fold_right fst snd]; lra.
      * rewrite nth_overflow by (rewrite map_length; exact Hi). cbn. lra.
    + exact IH.
    + intros i v. unfold vcomp. rewrite !(nth_map_any _ _ _ 0%nat). destruct (_ <? _)%nat; [|lra]. destruct (_ =? _)%nat; [|lra].
      change (reval ((c, u) :: p) v) with (c * meval u v + reval p v). lra.
Qed.
Lemma full_in pattern (L : mono -> Prop) ps F : (forall s u, In s pattern -> L u -> span ps (veval (unit pattern s u))) ->
  full_space pattern L F -> span ps F.
Proof.
  intros H (g & G & E).
  assert (X : forall ss, NoDup ss -> incl ss pattern -> span ps (fun v => map (fun s' => if in_dec Nat.eq_dec s' ss then reval (g s') v else 0) pattern)).
  { induction ss as [|s ss IH]; intros ND I.
    - apply span_zero. intros i v. unfold vcomp. rewrite (nth_map_any _ _ _ 0%nat). destruct (_ <? _)%nat; reflexivity.
    - inversion ND as [|? ? Ns ND']; subst. eapply span_add; [apply (slot_in pattern L g s); [intros u Hu; apply H; [apply I; left; reflexivity|exact Hu]|apply G]|apply IH; [exact ND'|intros x Hx; apply I; right; exact Hx]|].
      intros i v. unfold vcomp, slot. rewrite !(nth_map_any _ _ _ 0%nat). destruct (_ <? _)%nat; [|lra].
      destruct (in_dec Nat.eq_dec (nth i pattern 0%nat) (s :: ss)) as [K|K]; destruct (in_dec Nat.eq_dec (nth i pattern 0%nat) ss) as [K'|K']; destruct (Nat.eqb_spec s (nth i pattern 0%nat)) as [Q|Q].
      + exfalso. apply Ns. rewrite Q. exact K'.
      + lra.
      + rewrite <- Q. lra.
      + destruct K as [K|K]; contradiction.
      + exfalso. apply K. right. exact K'.
      + exfalso. apply K. right. exact K'.
      + exfalso. apply K. left. exact Q.
      + lra. }
  eapply span_ext; [|apply (X (nodup Nat.eq_dec pattern)); [apply NoDup_nodup|intros x Hx; apply nodup_In in Hx; exact Hx]].
  intros i v. rewrite E. unfold vcomp. rewrite !(nth_map_any _ _ _ 0%nat). destruct (Nat.ltb_spec i (length pattern)) as [Hi|]; [|reflexivity].
  destruct (in_dec _ _ _) as [|K]; [reflexivity|]. exfalso. apply K, nodup_In, nth_In, Hi.
Qed.

(** * Coefficients *)
Definition sized_monos (d : nat) (p : zpoly) : Prop := Forall (fun t => length (snd t) = d) p.
Lemma sized_z2r d p : sized_monos d p -> Forall (fun t => length (snd t) = d) (z2r p).
Proof. intros H. apply Forall_map. exact H. Qed.
Lemma reval_lincomb cs (l : list vpoly) i v : lincomb cs (map (fun g => vcomp g i) (map veval l)) v = reval (rlincomb cs (map (fun p => z2r (nth i p [])) l)) v.
Proof.
  rewrite reval_rlincomb. apply lincomb_ext. rewrite !map_map. apply map_ext. intros p. rewrite vcomp_veval, reval_z2r. reflexivity.
Qed.
Definition weights := list (R * (nat * mono)).
Definition wval (W : weights) (p : vpoly) : R := fold_right (fun t acc => fst t * coef (z2r (nth (fst (snd t)) p [])) (snd (snd t)) + acc) 0 W.
Definition all_sized (d : nat) (p : vpoly) : Prop := Forall (sized_monos d) p.
Lemma all_sized_nth d p i : all_sized d p -> sized_monos d (nth i p []).
Proof.
  intros H. destruct (lt_dec i (length p)) as [Hi|Hi].
  - unfold all_sized in H. rewrite Forall_forall in H. apply H, nth_In, Hi.
  - rewrite nth_overflow by lia. constructor.
Qed.
Lemma coef_rlincomb cs (l : list rpoly) u : coef (rlincomb cs l) u = lincomb cs (map (fun p => (fun _ : point => coef p u)) l) (fun _ => 0).
Proof.
  revert l. induction cs as [|c cs IH]; intros [|p l]; cbn [rlincomb map lincomb]; try reflexivity.
  rewrite coef_app, coef_rscale, IH. reflexivity.
Qed.
Lemma coef_of_span d ps q i u : Forall (all_sized d) ps -> all_sized d q -> length u = d -> forall cs,
  (forall v, vcomp (veval q) i v = lincomb cs (map (fun g => vcomp g i) (map veval ps)) v) ->
  coef (z2r (nth i q [])) u = lincomb cs (map (fun p => (fun _ : point => coef (z2r (nth i p [])) u)) ps) (fun _ => 0).
Proof.
  intros S Sq Lu cs E.
  assert (Z : coef (z2r (nth i q []) ++ rscale (-1) (rlincomb cs (map (fun p => z2r (nth i p [])) ps))) u = 0).
  { apply (poly_identity d); [|intros v; rewrite reval_app, reval_rscale, <- reval_lincomb, <- E, vcomp_veval, reval_z2r; lra|exact Lu].
    apply Forall_app; split; [apply sized_z2r, all_sized_nth, Sq|]. apply (Forall_rscale (fun m => length m = d)). apply (Forall_rlincomb (fun m => length m = d)).
    apply Forall_map. eapply Forall_impl; [|exact S]. intros p Hp. cbn beta. apply sized_z2r, all_sized_nth, Hp. }
  rewrite coef_app, coef_rscale, coef_rlincomb, map_map in Z. lra.
Qed.
Lemma lincomb_lin {A} cs (f g h : A -> R) w v : (forall a, h a = w * f a + g a) -> forall l,
  lincomb cs (map (fun a => (fun _ : point => h a)) l) v = w * lincomb cs (map (fun a => (fun _ : point => f a)) l) v + lincomb cs (map (fun a => (fun _ : point => g a)) l) v.
Proof.
  intros H. induction cs as [|c cs IH]; intros [|a l]; cbn [map lincomb]; try lra. rewrite IH, H. lra.
Qed.
Lemma wval_span d W ps q : Forall (all_sized d) ps -> all_sized d q -> Forall (fun t => length (snd (snd t)) = d) W ->
  span ps (veval q) -> (forall p, In p ps -> wval W p = 0) -> wval W q = 0.
Proof.
  intros S Sq SW (cs & L & E) H.
  assert (X : wval W q = lincomb cs (map (fun p => (fun _ : point => wval W p)) ps) (fun _ => 0)).
  { clear H. induction SW as [|[w [i u]] W Hu SW IH]; cbn [wval fold_right fst snd].
    - clear. revert cs. induction ps as [|p ps IH]; intros [|c cs]; cbn [map lincomb]; try reflexivity. rewrite <- IH. lra.
    - fold (wval W q). rewrite IH, (coef_of_span d ps q i u S Sq Hu cs (E i)).
      symmetry. apply lincomb_lin. reflexivity. }
  rewrite X. clear X E. revert cs L. induction ps as [|p ps IH]; intros [|c cs] L; try discriminate L; [reflexivity|]. cbn [map lincomb].
  rewrite (H p (or_introl eq_refl)), IH; [lra| |intros p' Hp; apply H; right; exact Hp|cbn in L; rewrite !map_length in *; lia].
  inversion S; assumption.
Qed.
Lemma unit_sized d pattern s u : length u = d -> all_sized d (unit pattern s u).
Proof. intros H. unfold all_sized, unit. apply Forall_map, Forall_forall. intros s' _. destruct (_ =? _)%nat; repeat constructor; exact H. Qed.
Lemma nth_unit pattern s u j : (j < length pattern)%nat -> nth j (unit pattern s u) [] = if (s =? nth j pattern 0)%nat then [(1%Z, u)] else [].
Proof.
  intros H. unfold unit. rewrite (nth_indep _ [] ((fun s' => if (s =? s')%nat then [(1%Z, u)] else []) 0%nat)) by (rewrite map_length; exact H).
  apply (map_nth (fun s' => if (s =? s')%nat then [(1%Z, u)] else [])).
Qed.
Lemma coef_one u w : coef (z2r [(1%Z, u)]) w = if mono_eq_dec u w then 1 else 0.
Proof. cbn. destruct (mono_eq_dec u w); cbn; lra. Qed.

(** * Spans inside full spaces *)
(** all monomials of the entry s satisfy B s, and the entries follow the pattern *)
Definition conform (pattern : list nat) (B : nat -> mono -> Prop) (p : vpoly) : Prop :=
  exists comps : list zpoly, p = map (fun s => nth s comps []) pattern /\ forall s, Forall (fun t => B s (snd t)) (nth s comps []).
Lemma conform_in pattern (B : nat -> mono -> Prop) (L : mono -> Prop) ps F : Forall (conform pattern B) ps ->
  (forall s u, In s pattern -> B s u -> L u) -> span ps F -> full_space pattern L F.
Proof.
  intros C H (cs & Lc & E). rewrite map_length in Lc.
  assert (X : exists g : nat -> rpoly, (forall s, In s pattern -> Forall (fun t => L (snd t)) (g s)) /\
    forall i v, lincomb cs (map (fun f => vcomp f i) (map veval ps)) v = nth i (map (fun s => reval (g s) v) pattern) 0).
  { clear E. revert cs Lc. induction C as [|p ps (comps & Ep & Hp) C IH]; intros [|c cs] Lc; try discriminate Lc.
    - exists (fun _ => []). split; [constructor|]. intros i v. cbn [map lincomb]. rewrite (nth_map_any _ _ _ 0%nat). destruct (_ <? _)%nat; reflexivity.
    - destruct (IH cs ltac:(cbn in Lc; lia)) as (g & Hg & Eg). exists (fun s => rscale c (z2r (nth s comps [])) ++ g s). split.
      + intros s Hs. apply Forall_app; split; [|apply Hg, Hs]. apply (Forall_rscale L). apply Forall_map. cbn [snd]. eapply Forall_impl; [|apply (Hp s)].
        intros t Ht. exact (H s _ Hs Ht).
      + intros i v. cbn [map lincomb]. rewrite Eg, vcomp_veval, Ep. rewrite !(nth_map_any _ _ _ 0%nat).
        destruct (Nat.ltb_spec i (length pattern)) as [Hi|Hi].
        * rewrite (nth_indep _ [] ((fun s => nth s comps []) 0%nat)) by (rewrite map_length; exact Hi).
          rewrite (map_nth (fun s => nth s comps [])), reval_app, reval_rscale, reval_z2r. reflexivity.
        * rewrite nth_overflow by (rewrite map_length; exact Hi). cbn. lra. }
  destruct X as (g & Hg & Eg). exists (fun s => if in_dec Nat.eq_dec s pattern then g s else []). split.
  - intros s. destruct (in_dec _ _ _) as [K|]; [apply Hg, K|constructor].
  - intros i v. rewrite E, Eg. rewrite !(nth_map_any _ _ _ 0%nat). destruct (Nat.ltb_spec i (length pattern)) as [Hi|]; [|reflexivity].
    destruct (in_dec _ _ _) as [|K]; [reflexivity|]. exfalso. apply K, nth_In, Hi.
Qed.
Lemma full_coef d pattern (L : mono -> Prop) q j u : (forall w, L w -> length w = d) -> all_sized d q -> length u = d -> ~ L u ->
  full_space pattern L (veval q) -> coef (z2r (nth j q [])) u = 0.
Proof.
  intros HL Sq Lu N (g & G & E).
  destruct (lt_dec j (length pattern)) as [Hj|Hj].
  - assert (Z : coef (z2r (nth j q []) ++ rscale (-1) (g (nth j pattern 0%nat))) u = 0).
    { apply (poly_identity d).
      - apply Forall_app; split; [apply sized_z2r, all_sized_nth, Sq|]. apply (Forall_rscale (fun m => length m = d)). eapply Forall_impl; [|apply G]. intros t. apply HL.
      - intros v. rewrite reval_app, reval_rscale, reval_z2r, <- vcomp_veval, E, (nth_map_any _ _ _ 0%nat).
        replace (j <? length pattern)%nat with true by (symmetry; apply Nat.ltb_lt; exact Hj). lra.
      - exact Lu. }
    assert (Z2 : coef (g (nth j pattern 0%nat)) u = 0).
    { specialize (G (nth j pattern 0%nat)). clear Z. induction G as [|[a w] p Hw G IH]; [reflexivity|]. cbn. destruct (mono_eq_dec w u) as [->|]; [contradiction|].
      rewrite Rplus_0_l. exact IH. }
    rewrite coef_app, coef_rscale, Z2 in Z. lra.
  - assert (Z : coef (z2r (nth j q [])) u = 0).
    { apply (poly_identity d); [apply sized_z2r, all_sized_nth, Sq| |exact Lu]. intros v. rewrite reval_z2r, <- vcomp_veval, E.
      apply nth_overflow. rewrite map_length. lia. }
    exact Z.
Qed.

(** * The four attributes *)
Local Open Scope nat_scope.
Lemma conform_sized d pattern (B : nat -> mono -> Prop) p : (forall s u, B s u -> length u = d) -> conform pattern B p -> all_sized d p.
Proof.
  intros H (comps & -> & F). apply Forall_map, Forall_forall. intros s _. eapply Forall_impl; [|apply F]. intros t. apply H.
Qed.
Lemma conform_coef pattern (B : nat -> mono -> Prop) p j u : (j < length pattern)%nat -> conform pattern B p -> ~ B (nth j pattern 0) u -> coef (z2r (nth j p [])) u = 0%R.
Proof.
  intros Hj (comps & -> & F) N. rewrite (nth_indep _ [] ((fun s => nth s comps []) 0)) by (rewrite map_length; exact Hj).
  rewrite (map_nth (fun s => nth s comps [])). specialize (F (nth j pattern 0)). induction F as [|[a w] q Hw F IH]; [reflexivity|].
  cbn. destruct (mono_eq_dec w u) as [->|]; [contradiction|]. rewrite Rplus_0_l. exact IH.
Qed.

(** a functional that vanishes on ps but not on a member of the space *)
Definition excluded (d : nat) (pattern : list nat) (ps : list vpoly) (L : mono -> Prop) : Prop :=
  exists W s u, In s pattern /\ L u /\ length u = d /\ Forall (fun t => length (snd (snd t)) = d) W /\
    (forall p, In p ps -> wval W p = 0%R) /\ wval W (unit pattern s u) <> 0%R.
Lemma excluded_B d pattern (B : nat -> mono -> Prop) ps (L : mono -> Prop) s u : Forall (conform pattern B) ps -> In s pattern -> L u -> length u = d -> ~ B s u -> excluded d pattern ps L.
Proof.
  intros C Hs HL Hd N. destruct (In_nth pattern s 0 Hs) as (j & Hj & Ej).
  exists [(1%R, (j, u))], s, u. split; [exact Hs|]. split; [exact HL|]. split; [exact Hd|]. split; [repeat constructor; exact Hd|]. split.
  - intros p Hp. rewrite Forall_forall in C. unfold wval. cbn [fold_right fst snd]. rewrite (conform_coef pattern B p j u Hj (C p Hp)) by (rewrite Ej; exact N). lra.
  - unfold wval. cbn [fold_right fst snd]. rewrite nth_unit by exact Hj. rewrite Ej, Nat.eqb_refl, coef_one. destruct (mono_eq_dec u u); [lra|contradiction].
Qed.
Lemma sub_by d pattern (L : nat -> mono -> Prop) ps (k : Z) (A : nat -> mono -> Prop) :
  Forall (all_sized d) ps -> (forall s u, In s pattern -> A s u -> span ps (veval (unit pattern s u))) ->
  (forall m s u, (Z.of_nat m <= k)%Z -> In s pattern -> L m u -> A s u) ->
  (forall m, (k < Z.of_nat m)%Z -> excluded d pattern ps (L m)) ->
  subdegree pattern L (span ps) k.
Proof.
  intros S HA H1 H2 m. split.
  - intros I. destruct (Z_le_gt_dec (Z.of_nat m) k) as [|G]; [assumption|exfalso].
    destruct (H2 m ltac:(lia)) as (W & s & u & Hs & HL & Hd & SW & Z & NZ). apply NZ. apply (wval_span d W ps); try assumption; [apply unit_sized, Hd|].
    apply I. exists (fun s' => if s =? s' then [(1%R, u)] else []). split.
    + intros s'. destruct (_ =? _); [constructor; [exact HL|constructor]|constructor].
    + intros i v. rewrite vcomp_veval. rewrite (nth_map_any _ _ _ 0). destruct (Nat.ltb_spec i (length pattern)) as [Hi|Hi].
      * rewrite nth_unit by exact Hi. destruct (_ =? _); reflexivity.
      * unfold unit. rewrite nth_overflow by (rewrite map_length; exact Hi). reflexivity.
  - intros Hm F. apply full_in. intros s u Hs Hu. apply HA; [exact Hs|]. exact (H1 m s u Hm Hs Hu).
Qed.
(** a member of the span with a monomial that is not allowed *)
Definition outside (d : nat) (ps : list vpoly) (L : mono -> Prop) : Prop :=
  exists q j u, span ps (veval q) /\ all_sized d q /\ length u = d /\ coef (z2r (nth j q [])) u <> 0%R /\ ~ L u.
Lemma outside_A d pattern (A : nat -> mono -> Prop) ps (L : mono -> Prop) s u : (forall s u, In s pattern -> A s u -> span ps (veval (unit pattern s u))) -> In s pattern -> A s u ->
  length u = d -> ~ L u -> outside d ps L.
Proof.
  intros HA Hs HAu Hd N. destruct (In_nth pattern s 0 Hs) as (j & Hj & Ej). exists (unit pattern s u), j, u.
  split; [apply HA; assumption|]. split; [apply unit_sized, Hd|]. split; [exact Hd|]. split; [|exact N].
  rewrite nth_unit by exact Hj. rewrite Ej, Nat.eqb_refl, coef_one. destruct (mono_eq_dec u u); [lra|contradiction].
Qed.
Lemma super_by d pattern (L : nat -> mono -> Prop) ps (k : Z) (B : nat -> mono -> Prop) :
  (forall m u, L m u -> length u = d) -> Forall (conform pattern B) ps ->
  (forall m s u, (k <= Z.of_nat m)%Z -> In s pattern -> B s u -> L m u) ->
  (forall m, (Z.of_nat m < k)%Z -> outside d ps (L m)) ->
  superdegree pattern L (span ps) k.
Proof.
  intros HL C H1 H2 m. split.
  - intros I. destruct (Z_le_gt_dec k (Z.of_nat m)) as [|G]; [assumption|exfalso].
    destruct (H2 m ltac:(lia)) as (q & j & u & Sq & Zq & Hd & NZ & N). apply NZ. apply (full_coef d pattern (L m)); try assumption; [intros w; apply HL|].
    apply I, Sq.
  - intros Hm F. apply (conform_in pattern B); [exact C|]. intros s u. exact (H1 m s u Hm).
Qed.

Definition degrees_right (pattern : list nat) (c : cell_type) (S : vfun -> Prop) (l1 l2 p1 p2 : Z) : Prop :=
  subdegree pattern (lagrange_monomial c) S l1 /\ superdegree pattern (lagrange_monomial c) S l2 /\
  subdegree pattern (complete (tdim c)) S p1 /\ superdegree pattern (complete (tdim c)) S p2.
Lemma lagrange_length c m u : lagrange_monomial c m u -> length u = tdim c.
Proof. destruct c; cbn; try tauto; unfold complete; tauto. Qed.

(** the usual case: A is in the span, the span is in B *)
Lemma degrees_by pattern c ps (A B : nat -> mono -> Prop) l1 l2 p1 p2 :
  (forall s u, B s u -> length u = tdim c) ->
  (forall s u, In s pattern -> A s u -> span ps (veval (unit pattern s u))) -> Forall (conform pattern B) ps ->
  (forall m s u, (Z.of_nat m <= l1)%Z -> In s pattern -> lagrange_monomial c m u -> A s u) ->
  (forall m, (l1 < Z.of_nat m)%Z -> exists s u, In s pattern /\ lagrange_monomial c m u /\ ~ B s u) ->
  (forall m s u, (l2 <= Z.of_nat m)%Z -> In s pattern -> B s u -> lagrange_monomial c m u) ->
  (forall m, (Z.of_nat m < l2)%Z -> outside (tdim c) ps (lagrange_monomial c m)) ->
  (forall m s u, (Z.of_nat m <= p1)%Z -> In s pattern -> complete (tdim c) m u -> A s u) ->
  (forall m, (p1 < Z.of_nat m)%Z -> exists s u, In s pattern /\ complete (tdim c) m u /\ ~ B s u) ->
  (forall m s u, (p2 <= Z.of_nat m)%Z -> In s pattern -> B s u -> complete (tdim c) m u) ->
  (forall m, (Z.of_nat m < p2)%Z -> outside (tdim c) ps (complete (tdim c) m)) ->
  degrees_right pattern c (span ps) l1 l2 p1 p2.
Proof.
  intros HB HA C G1 G2 G3 G4 G5 G6 G7 G8.
  assert (S : Forall (all_sized (tdim c)) ps) by (eapply Forall_impl; [|exact C]; intros p; apply conform_sized, HB).
  split; [|split; [|split]].
  - apply (sub_by (tdim c) pattern _ ps l1 A); try assumption. intros m Hm. destruct (G2 m Hm) as (s & u & Hs & Hu & N).
    apply (excluded_B _ _ B _ _ s u); try assumption. exact (lagrange_length c m u Hu).
  - apply (super_by (tdim c) pattern _ ps l2 B); try assumption. intros m u. apply lagrange_length.
  - apply (sub_by (tdim c) pattern _ ps p1 A); try assumption. intros m Hm. destruct (G6 m Hm) as (s & u & Hs & Hu & N).
    apply (excluded_B _ _ B _ _ s u); try assumption. apply Hu.
  - apply (super_by (tdim c) pattern _ ps p2 B); try assumption. intros m u Hu. apply Hu.
Qed.

(** sets of units *)
Lemma conform_unit pattern (B : nat -> mono -> Prop) s u : B s u -> conform pattern B (unit pattern s u).
Proof.
  intros H. exists (repeat [] s ++ [[(1%Z, u)]]).
  assert (X : forall s', nth s' (repeat [] s ++ [[(1%Z, u)]]) [] = if s =? s' then [(1%Z, u)] else []).
  { induction s as [|s IH]; intros [|s']; try reflexivity; [destruct s'; reflexivity|]. cbn [repeat app nth Nat.eqb]. 
    destruct (Nat.eqb_spec s s') as [->|N].
    - clear. induction s' as [|s' IH]; [reflexivity|exact IH].
    - destruct (lt_dec s' s) as [K|K].
      + rewrite app_nth1 by (rewrite repeat_length; exact K). apply nth_repeat.
      + apply nth_overflow. rewrite app_length, repeat_length. cbn. lia. }
  split; [apply map_ext; intros s'; symmetry; apply X|]. intros s'. rewrite X. destruct (Nat.eqb_spec s s') as [<-|]; [|constructor].
  constructor; [exact H|constructor].
Qed.
Lemma conform_vector (B : nat -> mono -> Prop) p : (forall s, Forall (fun t => B s (snd t)) (nth s p [])) -> conform (range (length p)) B p.
Proof.
  intros H. exists p. split; [|exact H]. symmetry. clear H. apply (nth_ext _ _ [] []); [rewrite map_length, length_range; reflexivity|].
  intros i Hi. rewrite map_length, length_range in Hi.
  rewrite (nth_indep _ [] ((fun s => nth s p []) 0)) by (rewrite map_length, length_range; exact Hi). rewrite (map_nth (fun s => nth s p [])).
  unfold range. rewrite seq_nth by exact Hi. reflexivity.
Qed.
