(** Elements of FamiliesModel that were built, and the Lagrange elements. *)
From Coq Require Import String ZArith Arith Bool Reals Lia List.
From Verif Require Import Base PolyLib PolySetsModel PolySetsProofs RTNedelecProofs QuadratureModel ReferencesModel
  ReferencesSpec ReferencesProofs MomentsModel ElementModel LagrangeModel LagrangeProofs LagrangeKey LagrangeUnisolvence
  PropertiesLagrange QProofs QDofs PropertiesQ FamiliesModel FamiliesSpec FamiliesMoments.
Import ListNotations.
Local Open Scope string_scope.
Local Open Scope nat_scope.
Local Open Scope list_scope.

(** * Numbers of polynomials *)
Definition tet (n : nat) : nat := list_sum (map tri (range (S n))).
Lemma tet_closed n : 6 * tet n = n * (n + 1) * (n + 2).
Proof. apply sum_tri_closed. Qed.
Definition pdim (d n : nat) : nat := match d with 1 => n + 1 | 2 => tri (n + 1) | _ => tet (n + 1) end.
Lemma pdim2 n : 2 * pdim 2 n = (n + 1) * (n + 2).
Proof. pose proof (tri_closed (n + 1)). cbn [pdim]. lia. Qed.
Lemma pdim3 n : 6 * pdim 3 n = (n + 1) * (n + 2) * (n + 3).
Proof. pose proof (tet_closed (n + 1)). cbn [pdim]. lia. Qed.

Definition sized {A} (x : res (list A)) (k : nat) : Prop := exists l, x = Ok l /\ length l = k.
Lemma sized_map {A B} (f : A -> B) x k : sized x k -> sized (rmap (map f) x) k.
Proof. intros (l & -> & L). exists (map f l). split; [reflexivity|]. rewrite map_length. exact L. Qed.

Lemma polynomial_sized d n : 1 <= d <= 3 -> sized (polynomial_set_1d d n) (pdim d n).
Proof.
  intros Hd. destruct (polynomial_set_1d_ok d n Hd) as (l & E & _). exists l. split; [exact E|].
  pose proof (pdim2 n). pose proof (pdim3 n).
  destruct (polynomial_set_1d_length d n l E) as [[-> L]|[[-> L]|[-> L]]]; [cbn [pdim]; lia|nia|nia].
Qed.
Lemma polynomial_vector_sized d r n : 1 <= d <= 3 -> sized (polynomial_set_vector d r n) (pdim d n * r).
Proof.
  intros Hd. destruct (polynomial_sized d n Hd) as (l & E & L). unfold polynomial_set_vector. rewrite E.
  eexists. split; [reflexivity|]. rewrite length_vectorise, L. reflexivity.
Qed.

(** * Elements that were built *)
Definition built (x : res fe) (k : nat) (c : cell_type) : Prop :=
  exists e, x = Ok e /\ length (fe_poly e) = k /\ length (fe_dofs e) = k /\ Forall (fun d => on_cell c (f_entity d)) (fe_dofs e).

Lemma built_ciarlet poly dofs k c : length poly = k -> length dofs = k -> Forall (fun d => on_cell c (f_entity d)) dofs ->
  built (ciarlet poly dofs) k c.
Proof.
  intros H1 H2 F. exists {| fe_poly := poly; fe_dofs := dofs |}. unfold ciarlet. rewrite H1, H2, Nat.eqb_refl.
  repeat split; assumption.
Qed.

Lemma bind_poly {A} (x : res (list A)) k cont K c : sized x k -> (forall l, length l = k -> built (cont l) K c) ->
  built (rbind x cont) K c.
Proof. intros (l & -> & L) H. apply H, L. Qed.
Lemma bind_count r c dim cont K : shaped c r -> 1 <= dim <= 3 -> built (cont (length (shape c dim))) K c ->
  built (rbind (sub_entity_count r dim) cont) K c.
Proof. intros (_ & _ & _ & S) Hd H. destruct (S dim Hd) as [-> _]. exact H. Qed.
Lemma bind_moments x k cont K c : moments_res c x k ->
  (forall ds, length ds = k -> Forall (fun d => on_cell c (f_entity d)) ds -> built (cont ds) K c) ->
  built (rbind (rmap (map of_moment) x) cont) K c.
Proof. intros (ds & -> & L & F) H. apply H; assumption. Qed.
Lemma bind_fe x k c' cont K c : built x k c' ->
  (forall e, length (fe_dofs e) = k -> Forall (fun d => on_cell c' (f_entity d)) (fe_dofs e) -> built (cont e) K c) ->
  built (rbind x cont) K c.
Proof. intros (e & -> & _ & L & F) H. apply H; assumption. Qed.
Lemma built_eq x k k' c : built x k c -> k = k' -> built x k' c.
Proof. intros H <-. exact H. Qed.

Definition dcount (fuel : nat) (c : cls) (ct : cell_type) (o : Z) (kw : string) : res nat :=
  match c with
  | inl f' => rmap (fun e => length (fe_dofs e)) (construct fuel f' (default ct) (Z.to_nat o) kw)
  | inr _ => Err TypeError
  end.

Lemma slot_yes k c r dim fn E o mp v t m kk num : shaped c r -> 1 <= dim <= tdim c -> shape c dim = repeat t num ->
  o = Z.of_nat m -> min_order E <= m -> built (construct k E (default t) m v) kk t ->
  slot_res (dcount k) c r dim (Some (moment_data fn E o mp v)) (num * kk).
Proof.
  intros S Hd Sh -> Hm (e & Ee & _ & L & _). apply (slot_uniform _ _ _ _ _ _ _ _ _ t); [exact S|exact Hd|exact Sh|].
  right. split; [lia|]. unfold dcount. rewrite Nat2Z.id, Ee. cbn [rmap]. rewrite L. reflexivity.
Qed.
Lemma slot_no k c r dim fn E o mp v : shaped c r -> 1 <= dim <= tdim c -> (o < Z.of_nat (min_order E))%Z ->
  slot_res (dcount k) c r dim (Some (moment_data fn E o mp v)) 0.
Proof.
  intros S Hd Ho. replace 0 with (list_sum (repeat 0 (length (shape c dim)))) by (rewrite list_sum_repeat; lia).
  apply slot_some; [exact S|exact Hd|]. induction (shape c dim) as [|t l IH]; simpl; constructor; [|exact IH].
  apply entity_res_md. left. split; [exact Ho|reflexivity].
Qed.

Lemma is_default_default c : known c -> is_default (default c) = true.
Proof.
  intros H. unfold is_default. destruct H as [->|[->|[->|[->|[->| ->]]]]]; cbn [default make_reference reference_vertices r_vertices r_type];
    (destruct (pts_eq_dec _ _) as [|N]; [reflexivity|]; exfalso; apply N; reflexivity).
Qed.

(** functionals on one entity *)
Lemma on_ok c cls' mp dim e : e < nth dim (entity_numbers c) 0 -> on_cell c (f_entity (on cls' mp dim e)).
Proof. intros H. exists dim. split; [reflexivity|exact H]. Qed.
Lemma on_map {A} c cls' mp dim e (l : list A) : e < nth dim (entity_numbers c) 0 ->
  Forall (fun d => on_cell c (f_entity d)) (map (fun _ => on cls' mp dim e) l).
Proof. intros H. apply Forall_forall. intros d Hd. apply in_map_iff in Hd. destruct Hd as (x & <- & _). apply on_ok, H. Qed.
Lemma Forall_flat_map' {A B} (P : B -> Prop) (f : A -> list B) l : (forall a, In a l -> Forall P (f a)) -> Forall P (flat_map f l).
Proof. intros H. apply Forall_forall. intros b Hb. apply in_flat_map in Hb. destruct Hb as (a & Ha & Hb). specialize (H a Ha).
  rewrite Forall_forall in H. apply H, Hb. Qed.

Lemma per_direction_length k l : length (flat_map (per_direction k) l) = length l * k.
Proof. apply length_flat_map_const. intros d _. unfold per_direction. rewrite map_length. apply length_range. Qed.
Lemma per_direction_on k l c : Forall (fun d => on_cell c (f_entity d)) l ->
  Forall (fun d => on_cell c (f_entity d)) (flat_map (per_direction k) l).
Proof.
  intros F. apply Forall_flat_map'. intros d Hd. rewrite Forall_forall in F. specialize (F d Hd). apply Forall_forall.
  intros e He. apply in_map_iff in He. destruct He as (x & <- & _). exact F.
Qed.

(** * Lagrange elements *)
Definition cell_of (c : cell_type) (r : reference) : Prop :=
  simplex c /\ exists vs, points (nvert c) (tdim c) vs /\ make_reference c vs = Ok r.
Lemma cell_of_default c : simplex c -> cell_of c (default c).
Proof.
  intros H. split; [exact H|]. exists (reference_vertices c).
  destruct H as [->|[->| ->]]; (split; [split; [reflexivity|repeat constructor]|reflexivity]).
Qed.
Lemma cell_of_shaped c r : cell_of c r -> shaped c r.
Proof. intros (Hc & vs & Hp & Hr). exact (shaped_simplex c vs r _ Hc Hp Hr). Qed.

Lemma closed_on c r idx P : shaped c r -> Forall (fun d => on_cell c (f_entity d)) (map of_point (closed_dofs r idx P)).
Proof.
  intros (K & T & LV & S). apply Forall_map, Forall_forall. intros [p [k e]] H. apply in_closed_dofs in H.
  exists k. split; [reflexivity|]. cbn [of_point f_entity snd].
  destruct H as [(-> & H)|(Hk & H & _)].
  - assert (H' : e < length (r_vertices r)) by (apply nth_error_Some; congruence). clear H. rename H' into H. rewrite LV in H.
    destruct K as [->|[->|[->|[->|[->| ->]]]]]; exact H.
  - rewrite shape_numbers by assumption. unfold ent_count in H. destruct (S k Hk) as [E _]. rewrite E in H. exact H.
Qed.

Lemma lagrange_built k c r n : cell_of c r -> built (construct (S k) Lagrange r n "equispaced") (pdim (tdim c) n) c.
Proof.
  intros C. pose proof (cell_of_shaped c r C) as Sh. destruct C as (Hc & vs & Hp & Hr).
  assert (Td : 1 <= tdim c <= 3) by (destruct Hc as [->|[->| ->]]; simpl; lia).
  destruct (polynomial_sized (tdim c) n Td) as (poly & Hq & Lq).
  cbn [construct]. unfold lagrange_poly. destruct Sh as (K & T & Sh'). rewrite T, Hq.
  destruct n as [|n].
  - destruct (C19_lagrange_order_zero c vs r Hc Hp Hr "equispaced" ltac:(discriminate)) as (p & phi & E & _). rewrite E. cbn [rbind].
    apply built_ciarlet; rewrite ?map_length; [exact Lq| |].
    + cbn [map length]. destruct Hc as [->|[->| ->]]; reflexivity.
    + constructor; [|constructor]. exists (tdim c). split; [reflexivity|]. destruct Hc as [->|[->| ->]]; simpl; lia.
  - rewrite (lagrange_dofs_closed r (tdim c) (S n)); [|apply (good_simplex c vs); assumption|lia]. cbn [rbind].
    apply built_ciarlet; rewrite ?map_length; [exact Lq| |].
    + rewrite (closed_count c vs r (S n) poly _ Hc Hp Hr) by (assumption || lia). exact Lq.
    + apply closed_on. exact (conj K (conj T Sh')).
Qed.

Ltac simp := unfold simplex; tauto.
Lemma lagrange_default k c n : simplex c -> built (construct (S k) Lagrange (default c) n "equispaced") (pdim (tdim c) n) c.
Proof. intros H. apply lagrange_built, cell_of_default, H. Qed.

Lemma vector_lagrange_built k c r n : cell_of c r ->
  built (construct (S (S k)) VectorLagrange r n "equispaced") (pdim (tdim c) n * tdim c) c.
Proof.
  intros C. pose proof (cell_of_shaped c r C) as (_ & T & _).
  change (construct (S (S k)) VectorLagrange r n "equispaced") with
   (rbind (construct (S k) Lagrange r n "equispaced") (fun scalar_space =>
      if tdim (r_type r) =? 1 then rbind (polynomial_set_1d (tdim (r_type r)) n) (fun poly => ciarlet (map scalar poly) (fe_dofs scalar_space))
      else rbind (polynomial_set_vector (tdim (r_type r)) (tdim (r_type r)) n) (fun poly =>
        ciarlet poly (flat_map (per_direction (tdim (r_type r))) (fe_dofs scalar_space))))).
  eapply bind_fe; [apply lagrange_built; exact C|]. intros e L F. rewrite T. destruct C as [Hc _].
  destruct Hc as [->|[->| ->]]; cbn [tdim Nat.eqb].
  1: eapply bind_poly; [apply polynomial_sized; lia|].
  2, 3: eapply bind_poly; [apply polynomial_vector_sized; lia|].
  all: intros l Ll; apply built_ciarlet; rewrite ?map_length, ?per_direction_length, ?L, ?Ll;
    try (cbn [tdim pdim]; lia); try apply per_direction_on; exact F.
Qed.
