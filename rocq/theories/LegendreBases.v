(** Orthogonality of row 0 on every cell, and the normalised tables. *)
From Coquelicot Require Import Coquelicot.
From Coq Require Import String Arith ZArith Reals Lia Lra Bool Sorted List.
From Verif Require Import Base PolyLib PolySetsModel PolyVec LinAlg LegendreModel LegendreSpec LegendreTables LegendreProofs LegendreTet LegendreRows LegendrePyramid LegendreDeriv LegendreJacobi LegendreOrtho LegendreIntSpec LegendreIntegrals.
From Verif Require ReferencesModel.
Import ListNotations.
Open Scope R_scope.

Definition depends (vars : list nat) (f : point -> R) : Prop := forall v w : point, (forall k, In k vars -> v k = w k) -> f v = f w.
(** row 0: positive norms, orthogonal, functions of the variables only *)
Definition ortho_row (cell : string) (vars : list nat) (t : table) : Prop :=
  (forall i j f g, at2 t 0 i = Some f -> at2 t 0 j = Some g ->
     exists N, 0 < N /\ forall v, integral_over cell vars (fun e => f e * g e) v (delta (Nat.eqb i j) N)) /\
  (forall i f, at2 t 0 i = Some f -> depends vars f).

Lemma at2_entry nd ni t i f : shape nd ni t -> at2 t 0 i = Some f -> (i < ni)%nat /\ forall G, entry t (0%nat, i) G -> forall v, f v = G v.
Proof.
  intros Sh H. unfold at2 in H. destruct (nth_error t 0) as [row|] eqn:Er; [|discriminate]. split.
  - rewrite <- (shape_row _ _ _ _ _ Sh Er). apply nth_error_Some. rewrite H. discriminate.
  - intros G (f' & Ef & Hf). unfold tget in Ef. cbn [fst snd] in Ef. rewrite Er, H in Ef. injection Ef as ->. exact Hf.
Qed.
(** from an indexed family *)
Lemma ortho_intro {A : Type} (ok : A -> Prop) (pos : A -> nat) (G : A -> point -> R) (N : A -> R) (eqA : A -> A -> bool) cell c lims vars nd ni t :
  In (cell, c) cell_names -> ReferencesModel.integration_limits c = Ok lims -> shape nd ni t ->
  (forall i, (i < ni)%nat -> exists a, ok a /\ pos a = i) -> (forall a b, ok a -> ok b -> eqA a b = Nat.eqb (pos a) (pos b)) ->
  (forall a, ok a -> entry t (0%nat, pos a) (G a)) -> (forall a, ok a -> 0 < N a) -> (forall a, ok a -> depends vars (G a)) ->
  (forall a b v, ok a -> ok b -> iterated_integral (with_variables vars lims) (fun e => G a e * G b e) v (delta (eqA a b) (N a))) ->
  ortho_row cell vars t.
Proof.
  intros Hc Hl Sh Sur Eq En Pos Dep Int. split.
  - intros i j f g Hf Hg. destruct (at2_entry _ _ _ _ _ Sh Hf) as [Li Ef]. destruct (at2_entry _ _ _ _ _ Sh Hg) as [Lj Eg].
    destruct (Sur i Li) as (a & Ha & <-). destruct (Sur j Lj) as (b & Hb & <-). exists (N a). split; [apply Pos, Ha|]. intros v. exists c, lims. split; [exact Hc|]. split; [exact Hl|].
    rewrite <- (Eq a b Ha Hb). eapply iterated_ext'; [|apply Int; assumption]. intros e. cbv beta. rewrite (Ef _ (En a Ha)), (Eg _ (En b Hb)). reflexivity.
  - intros i f Hf v w Hv. destruct (at2_entry _ _ _ _ _ Sh Hf) as [Li Ef]. destruct (Sur i Li) as (a & Ha & <-). rewrite !(Ef _ (En a Ha)). apply (Dep a Ha). exact Hv.
Qed.
Lemma pos_inv x : 0 <= x -> 0 < / (2 * x + 1).
Proof. intros H. apply Rinv_0_lt_compat. lra. Qed.
Lemma dep_gi v0 n : depends [v0] (gi v0 n 0).
Proof. intros v w H. rewrite !gi_hom, (H v0) by (left; reflexivity). reflexivity. Qed.
Lemma dep_incl l l' f : (forall k, In k l -> In k l') -> depends l f -> depends l' f.
Proof. intros I D v w H. apply D. intros k Hk. apply H, I, Hk. Qed.
Lemma dep_mult l f g : depends l f -> depends l g -> depends l (fun v => f v * g v).
Proof. intros D E v w H. rewrite (D v w H), (E v w H). reflexivity. Qed.
Lemma dep_tq v0 v1 q p : depends [v0; v1] (tq v0 v1 q p 0 0).
Proof. intros v w H. rewrite !tq_hom, (H v0), (H v1) by (simpl; auto). reflexivity. Qed.
Lemma dep_hr v0 v1 v2 r q p : depends [v0; v1; v2] (hr v0 v1 v2 r q p 0 0 0).
Proof. intros v w H. rewrite !hr_hom, (H v0), (H v1), (H v2) by (simpl; auto). reflexivity. Qed.
Lemma dep_yk v0 v1 v2 k i j : depends [v0; v1; v2] (yk v0 v1 v2 k i j 0 0 0).
Proof.
  intros v x H. rewrite !yk_hom, (H v2) by (simpl; auto). f_equal. assert (E0 := H v0 ltac:(simpl; auto)). assert (E1 := H v1 ltac:(simpl; auto)). assert (E2 := H v2 ltac:(simpl; auto)).
  induction j as [| |j IH1 IH2] using two_step.
  - cbn [yj]. rewrite !yi_hom, E0, E2. reflexivity.
  - rewrite !yj_S. unfold ystep, w, zero3. cbv zeta. cbn [Nat.sub sum]. change (yj v0 v1 v2 i 0) with (yi v0 v2 i). rewrite !yi_hom, E0, E1, E2. reflexivity.
  - rewrite !(yj_S v0 v1 v2 i (S j)). unfold ystep, w. cbv zeta. cbn [Nat.sub sum]. rewrite IH1, IH2, E1, E2. reflexivity.
Qed.

Lemma eqb_pair2 (f : nat -> nat -> nat) a b a' b' : (f a b = f a' b' -> a = a' /\ b = b') -> (Nat.eqb b b' && Nat.eqb a a')%bool = Nat.eqb (f a b) (f a' b').
Proof.
  intros H. destruct (Nat.eqb_spec (f a b) (f a' b')) as [E|E]; destruct (Nat.eqb_spec a a') as [Ea|Ea]; destruct (Nat.eqb_spec b b') as [Eb|Eb]; try reflexivity; try (exfalso; apply H in E; destruct E; contradiction).
  exfalso. apply E. rewrite Ea, Eb. reflexivity.
Qed.
Lemma eqb_triple (x y a a' b b' c c' : nat) : (x = y <-> a = a' /\ b = b' /\ c = c') -> (Nat.eqb a a' && Nat.eqb b b' && Nat.eqb c c')%bool = Nat.eqb x y.
Proof.
  intros H. destruct (Nat.eqb_spec x y) as [E|E].
  - apply H in E. destruct E as (-> & -> & ->). rewrite !Nat.eqb_refl. reflexivity.
  - destruct (Nat.eqb_spec a a') as [Ea|Ea]; [|reflexivity]. destruct (Nat.eqb_spec b b') as [Eb|Eb]; [|reflexivity]. destruct (Nat.eqb_spec c c') as [Ec|Ec]; [|reflexivity].
    exfalso. apply E, H. auto.
Qed.
Lemma pos_mod n a b a' b' : (b <= n)%nat -> (b' <= n)%nat -> (a * (n + 1) + b = a' * (n + 1) + b')%nat -> a = a' /\ b = b'.
Proof. intros H H' E. destruct (divmod_eq 0 n a b H) as [A B]. destruct (divmod_eq 0 n a' b' H') as [A' B']. rewrite E in A, B. split; congruence. Qed.
Lemma index2_00 : index2 0 0 = 0%nat. Proof. reflexivity. Qed.
Lemma index3_00 : index3 0 0 0 = 0%nat. Proof. reflexivity. Qed.

Lemma interval_ortho order derivs v0 t : orthogonal_basis_interval order derivs [v0] = Ok t -> ortho_row "interval" [v0] t.
Proof.
  destruct (interval_table order derivs v0) as (t' & E & Sh & H). rewrite E. intros X. injection X as <-.
  apply (ortho_intro (fun n => (n <= order)%nat) (fun n => n) (fun n => gi v0 n 0) (fun n => / (2 * INR n + 1)) Nat.eqb "interval" ReferencesModel.CInterval _ [v0] _ _ _ ltac:(simpl; auto) eq_refl Sh).
  - intros i Hi. exists i. split; [lia|reflexivity].
  - reflexivity.
  - intros a Ha. apply (H 0%nat a); lia.
  - intros. apply pos_inv, pos_INR.
  - intros. apply dep_gi.
  - intros a b v _ _. apply interval_int.
Qed.
Lemma triangle_ortho order derivs v0 v1 t : v0 <> v1 -> orthogonal_basis_triangle order derivs [v0; v1] = Ok t -> ortho_row "triangle" [v0; v1] t.
Proof.
  intros N. destruct (triangle_table order derivs v0 v1) as (t' & E & Sh & H). rewrite E. intros X. injection X as <-.
  apply (ortho_intro (fun qp => (fst qp + snd qp <= order)%nat) (fun qp => index2 (fst qp) (snd qp)) (fun qp => tq v0 v1 (fst qp) (snd qp) 0 0) (fun qp => ntri (fst qp) (snd qp))
    (fun a b => Nat.eqb (snd a) (snd b) && Nat.eqb (fst a) (fst b))%bool "triangle" ReferencesModel.CTriangle _ [v0; v1] _ _ _ ltac:(simpl; auto) eq_refl Sh).
  - intros i Hi. destruct (index2_surj order i Hi) as (q & p & L & <-). exists (q, p). split; [exact L|reflexivity].
  - intros [q p] [q' p'] _ _. cbn [fst snd]. apply eqb_pair2. apply index2_inj.
  - intros [q p] L. apply (H 0 0 p q)%nat; [lia|exact L].
  - intros [q p] _. unfold ntri. apply Rmult_lt_0_compat; [apply pos_inv, pos_INR|]. cbn [fst snd]. apply Rinv_0_lt_compat. pose proof (pos_INR q). pose proof (pos_INR (2 * p + 1)). lra.
  - intros. apply dep_tq.
  - intros [q p] [q' p'] v _ _. apply triangle_int. exact N.
Qed.
Lemma quadrilateral_ortho order derivs v0 v1 t : v0 <> v1 -> orthogonal_basis_quadrilateral order derivs [v0; v1] = Ok t -> ortho_row "quadrilateral" [v0; v1] t.
Proof.
  intros N. destruct (quadrilateral_table order derivs v0 v1) as (t' & E & Sh & H). rewrite E. intros X. injection X as <-.
  apply (ortho_intro (fun ab => (fst ab <= order /\ snd ab <= order)%nat) (fun ab => (fst ab * (order + 1) + snd ab)%nat) (fun ab v => gi v0 (fst ab) 0 v * gi v1 (snd ab) 0 v) (fun ab => / (2 * INR (fst ab) + 1) * / (2 * INR (snd ab) + 1))
    (fun a b => Nat.eqb (fst a) (fst b) && Nat.eqb (snd a) (snd b))%bool "quadrilateral" ReferencesModel.CQuadrilateral _ [v0; v1] _ _ _ ltac:(simpl; auto) eq_refl Sh).
  - intros i Hi. destruct (divmod2 order i Hi) as (a & b & A & B & ->). exists (a, b). split; [split; assumption|reflexivity].
  - intros [a b] [a' b'] [_ L] [_ L']. cbn [fst snd] in *. apply (eqb_pair2 (fun b a => (a * (order + 1) + b)%nat)). intros E'. apply pos_mod in E'; [|assumption..]. destruct E'. auto.
  - intros [a b] [L L']. apply (H 0 0 a b)%nat; [lia|exact L|exact L'].
  - intros [a b] _. apply Rmult_lt_0_compat; apply pos_inv, pos_INR.
  - intros [a b] _. apply dep_mult; (eapply dep_incl; [|apply dep_gi]); simpl; intuition.
  - intros [a b] [a' b'] v _ _. apply quad_int. exact N.
Qed.
Lemma tetrahedron_ortho order derivs v0 v1 v2 t : v0 <> v1 -> v0 <> v2 -> v1 <> v2 -> orthogonal_basis_tetrahedron order derivs [v0; v1; v2] = Ok t -> ortho_row "tetrahedron" [v0; v1; v2] t.
Proof.
  intros N N' N''. destruct (tetrahedron_table order derivs v0 v1 v2) as (t' & E & Sh & H). rewrite E. intros X. injection X as <-.
  apply (ortho_intro (fun a : nat * nat * nat => (fst (fst a) + snd (fst a) + snd a <= order)%nat) (fun a => index3 (fst (fst a)) (snd (fst a)) (snd a)) (fun a => hr v0 v1 v2 (fst (fst a)) (snd (fst a)) (snd a) 0 0 0) (fun a => ntet (fst (fst a)) (snd (fst a)) (snd a))
    (fun a b => Nat.eqb (snd a) (snd b) && Nat.eqb (snd (fst a)) (snd (fst b)) && Nat.eqb (fst (fst a)) (fst (fst b)))%bool "tetrahedron" ReferencesModel.CTetrahedron _ [v0; v1; v2] _ _ _ ltac:(simpl; auto) eq_refl Sh).
  - intros i Hi. destruct (index3_surj order i Hi) as (r & q & p & L & <-). exists (r, q, p). split; [exact L|reflexivity].
  - intros [[r q] p] [[r' q'] p'] _ _. cbn [fst snd]. apply eqb_triple. split; [|intros (-> & -> & ->); reflexivity]. intros E'. apply index3_inj in E'. tauto.
  - intros [[r q] p] L. apply (H 0 0 0 p q r)%nat; [lia|exact L].
  - intros [[r q] p] _. unfold ntet. cbn [fst snd]. pose proof (pos_INR q). pose proof (pos_INR (2 * p + 1)). pose proof (pos_INR r). pose proof (pos_INR (2 * p + 2 * q + 2)).
    repeat apply Rmult_lt_0_compat; [apply pos_inv, pos_INR| |]; apply Rinv_0_lt_compat; lra.
  - intros. apply dep_hr.
  - intros [[r q] p] [[r' q'] p'] v _ _. apply tetrahedron_int; assumption.
Qed.
Lemma hexahedron_ortho order derivs v0 v1 v2 t : v0 <> v1 -> v0 <> v2 -> v1 <> v2 -> orthogonal_basis_hexahedron order derivs [v0; v1; v2] = Ok t -> ortho_row "hexahedron" [v0; v1; v2] t.
Proof.
  intros N N' N''. destruct (hexahedron_table order derivs v0 v1 v2) as (t' & E & Sh & H). rewrite E. intros X. injection X as <-.
  apply (ortho_intro (fun a : nat * nat * nat => (fst (fst a) <= order /\ snd (fst a) <= order /\ snd a <= order)%nat) (fun a => ((fst (fst a) * (order + 1) + snd (fst a)) * (order + 1) + snd a)%nat)
    (fun a v => gi v0 (fst (fst a)) 0 v * gi v1 (snd (fst a)) 0 v * gi v2 (snd a) 0 v) (fun a => / (2 * INR (fst (fst a)) + 1) * / (2 * INR (snd (fst a)) + 1) * / (2 * INR (snd a) + 1))
    (fun a b => Nat.eqb (fst (fst a)) (fst (fst b)) && Nat.eqb (snd (fst a)) (snd (fst b)) && Nat.eqb (snd a) (snd b))%bool "hexahedron" ReferencesModel.CHexahedron _ [v0; v1; v2] _ _ _ ltac:(simpl; auto 10) eq_refl Sh).
  - intros i Hi. replace ((order + 1) ^ 3)%nat with ((order + 1) ^ 2 * (order + 1))%nat in Hi by (simpl; ring).
    destruct (divmod_r _ order i Hi) as (pq & r & A & B & ->). destruct (divmod2 order pq A) as (p & q & C & D & ->). exists (p, q, r). split; [auto|reflexivity].
  - intros [[a b] c] [[a' b'] c'] (_ & L1 & L2) (_ & L3 & L4). cbn [fst snd] in *. apply eqb_triple. split; [|intros (-> & -> & ->); reflexivity].
    intros E'. apply pos_mod in E'; [|assumption..]. destruct E' as [E' ->]. apply pos_mod in E'; [|assumption..]. tauto.
  - intros [[a b] c] (L1 & L2 & L3). apply (H 0 0 0 a b c)%nat; [lia|assumption..].
  - intros [[a b] c] _. repeat apply Rmult_lt_0_compat; apply pos_inv, pos_INR.
  - intros [[a b] c] _. cbn [fst snd]. apply (dep_mult _ (fun v => gi v0 a 0 v * gi v1 b 0 v)); [apply dep_mult|]; (eapply dep_incl; [|apply dep_gi]); simpl; intuition.
  - intros [[a b] c] [[a' b'] c'] v _ _. apply hex_int; assumption.
Qed.
Lemma prism_ortho order derivs v0 v1 v2 t : v0 <> v1 -> v0 <> v2 -> v1 <> v2 -> orthogonal_basis_prism order derivs [v0; v1; v2] = Ok t -> ortho_row "prism" [v0; v1; v2] t.
Proof.
  intros N N' N''. destruct (prism_table order derivs v0 v1 v2) as (t' & E & Sh & H). rewrite E. intros X. injection X as <-. rewrite prism_count in Sh.
  apply (ortho_intro (fun a : nat * nat * nat => (fst (fst a) + snd (fst a) <= order /\ snd a <= order)%nat) (fun a => (index2 (fst (fst a)) (snd (fst a)) * (order + 1) + snd a)%nat)
    (fun a v => tq v0 v1 (fst (fst a)) (snd (fst a)) 0 0 v * gi v2 (snd a) 0 v) (fun a => ntri (fst (fst a)) (snd (fst a)) * / (2 * INR (snd a) + 1))
    (fun a b => Nat.eqb (snd (fst a)) (snd (fst b)) && Nat.eqb (fst (fst a)) (fst (fst b)) && Nat.eqb (snd a) (snd b))%bool "prism" ReferencesModel.CPrism _ [v0; v1; v2] _ _ _ ltac:(simpl; auto 10) eq_refl Sh).
  - intros i Hi. destruct (divmod_r _ order i Hi) as (qp & c & A & B & ->). destruct (index2_surj order qp A) as (q & p & C & <-). exists (q, p, c). split; [auto|reflexivity].
  - intros [[q p] c] [[q' p'] c'] (_ & L2) (_ & L4). cbn [fst snd] in *. apply eqb_triple. split; [|intros (-> & -> & ->); reflexivity].
    intros E'. apply pos_mod in E'; [|assumption..]. destruct E' as [E' ->]. apply index2_inj in E'. tauto.
  - intros [[q p] c] (L1 & L2). apply (H 0 0 0 q p c)%nat; [lia|assumption..].
  - intros [[q p] c] _. unfold ntri. cbn [fst snd]. pose proof (pos_INR q). pose proof (pos_INR (2 * p + 1)). repeat apply Rmult_lt_0_compat; [apply pos_inv, pos_INR|apply Rinv_0_lt_compat; lra|apply pos_inv, pos_INR].
  - intros [[q p] c] _. cbn [fst snd]. apply dep_mult; (eapply dep_incl; [|first [apply dep_tq|apply dep_gi]]); simpl; intuition.
  - intros [[q p] c] [[q' p'] c'] v _ _. apply prism_int; assumption.
Qed.
Lemma pyramid_ortho order derivs v0 v1 v2 t : v0 <> v1 -> v0 <> v2 -> v1 <> v2 -> orthogonal_basis_pyramid order derivs [v0; v1; v2] = Ok t -> ortho_row "pyramid" [v0; v1; v2] t.
Proof.
  intros N N' N''. destruct (pyramid_table order derivs v0 v1 v2) as (t' & E & Sh & H). rewrite E. intros X. injection X as <-.
  apply (ortho_intro (fun a : nat * nat * nat => (Nat.max (fst (fst a)) (snd (fst a)) + snd a <= order)%nat) (fun a => pyramid_index order (fst (fst a)) (snd (fst a)) (snd a)) (fun a => yk v0 v1 v2 (snd a) (fst (fst a)) (snd (fst a)) 0 0 0) (fun a => npyr (snd a) (fst (fst a)) (snd (fst a)))
    (fun a b => Nat.eqb (fst (fst a)) (fst (fst b)) && Nat.eqb (snd (fst a)) (snd (fst b)) && Nat.eqb (snd a) (snd b))%bool "pyramid" ReferencesModel.CPyramid _ [v0; v1; v2] _ _ _ ltac:(simpl; auto 10) eq_refl Sh).
  - intros i Hi. destruct (pyramid_index_surj order i Hi) as (r & q & p & L & <-). exists (r, q, p). split; [exact L|reflexivity].
  - intros [[r q] p] [[r' q'] p'] L L'. cbn [fst snd] in *. apply eqb_triple. split; [|intros (-> & -> & ->); reflexivity]. intros E'. apply pyramid_index_inj in E'; assumption.
  - intros [[r q] p] L. apply (H 0 0 0 r q p)%nat; [lia|exact L].
  - intros [[r q] p] _. unfold npyr. cbn [fst snd]. pose proof (pos_INR p). pose proof (pos_INR (2 * Nat.max r q + 2)).
    repeat apply Rmult_lt_0_compat; [apply pos_inv, pos_INR|apply pos_inv, pos_INR|]; apply Rinv_0_lt_compat; lra.
  - intros. apply dep_yk.
  - intros [[r q] p] [[r' q'] p'] v _ _. apply pyramid_int; assumption.
Qed.
Lemma all_ortho cell d np vars order derivs t : In (cell, (d, np)) cells -> length vars = d -> NoDup vars -> orthogonal_basis cell order derivs (Some vars) = Ok t -> ortho_row cell vars t.
Proof.
  intros Hc L ND.
  assert (N2 : forall x y : nat, NoDup [x; y] -> x <> y). { intros x y H E. inversion H as [|? ? A _]; subst. apply A. left. reflexivity. }
  assert (N3 : forall x y z : nat, NoDup [x; y; z] -> x <> y /\ x <> z /\ y <> z). { intros x y z H. inversion H as [|? ? A B]; subst. inversion B as [|? ? C _]; subst. simpl in A, C. repeat split; intro; subst; auto. }
  destruct Hc as [E|[E|[E|[E|[E|[E|[E|[]]]]]]]]; injection E as <- <- <-.
  - destruct vars as [|v0 [|]]; try discriminate L. apply interval_ortho.
  - destruct vars as [|v0 [|v1 [|]]]; try discriminate L. apply triangle_ortho, N2, ND.
  - destruct vars as [|v0 [|v1 [|]]]; try discriminate L. apply quadrilateral_ortho, N2, ND.
  - destruct vars as [|v0 [|v1 [|v2 [|]]]]; try discriminate L. destruct (N3 _ _ _ ND) as (A & B & C). apply tetrahedron_ortho; assumption.
  - destruct vars as [|v0 [|v1 [|v2 [|]]]]; try discriminate L. destruct (N3 _ _ _ ND) as (A & B & C). apply hexahedron_ortho; assumption.
  - destruct vars as [|v0 [|v1 [|v2 [|]]]]; try discriminate L. destruct (N3 _ _ _ ND) as (A & B & C). apply prism_ortho; assumption.
  - destruct vars as [|v0 [|v1 [|v2 [|]]]]; try discriminate L. destruct (N3 _ _ _ ND) as (A & B & C). apply pyramid_ortho; assumption.
Qed.
