(** The degree attributes of the families whose polynomial sets consist of fields with one monomial entry (C56). *)
From Coq Require Import String ZArith Arith Bool Reals Lia Lra List.
From Verif Require Import Base PolyLib PolySetsModel PolySetsProofs ReferencesModel LagrangeModel FamiliesModel FamiliesBuilt
  DegreesModel DegreesSpec DegreesLib.
Import ListNotations.
Local Open Scope nat_scope.

(** ps consists of the fields with the entry u in place s, for the s and u in M *)
Definition units (pattern : list nat) (M : nat -> mono -> Prop) (ps : list vpoly) : Prop :=
  (forall s u, In s pattern -> M s u -> In (unit pattern s u) ps) /\
  (forall p, In p ps -> exists s u, In s pattern /\ M s u /\ p = unit pattern s u).

Lemma degrees_units pattern c ps (M : nat -> mono -> Prop) l1 l2 p1 p2 : units pattern M ps ->
  (forall s u, M s u -> length u = tdim c) ->
  (forall m s u, (Z.of_nat m <= l1)%Z -> In s pattern -> lagrange_monomial c m u -> M s u) ->
  (forall m, (l1 < Z.of_nat m)%Z -> exists s u, In s pattern /\ lagrange_monomial c m u /\ ~ M s u) ->
  (forall m s u, (l2 <= Z.of_nat m)%Z -> In s pattern -> M s u -> lagrange_monomial c m u) ->
  (forall m, (Z.of_nat m < l2)%Z -> exists s u, In s pattern /\ M s u /\ ~ lagrange_monomial c m u) ->
  (forall m s u, (Z.of_nat m <= p1)%Z -> In s pattern -> complete (tdim c) m u -> M s u) ->
  (forall m, (p1 < Z.of_nat m)%Z -> exists s u, In s pattern /\ complete (tdim c) m u /\ ~ M s u) ->
  (forall m s u, (p2 <= Z.of_nat m)%Z -> In s pattern -> M s u -> complete (tdim c) m u) ->
  (forall m, (Z.of_nat m < p2)%Z -> exists s u, In s pattern /\ M s u /\ ~ complete (tdim c) m u) ->
  degrees_right pattern c (span ps) l1 l2 p1 p2.
Proof.
  intros (U1 & U2) HL H1 H2 H3 H4 H5 H6 H7 H8.
  assert (A : forall s u, In s pattern -> M s u -> span ps (veval (unit pattern s u))) by (intros s u Hs Hu; apply span_in, U1; assumption).
  apply (degrees_by pattern c ps M M); try assumption.
  - apply Forall_forall. intros p Hp. destruct (U2 p Hp) as (s & u & Hs & Hu & ->). apply conform_unit, Hu.
  - intros m Hm. destruct (H4 m Hm) as (s & u & Hs & Hu & N). apply (outside_A (tdim c) pattern M ps _ s u); try assumption. apply (HL s), Hu.
  - intros m Hm. destruct (H8 m Hm) as (s & u & Hs & Hu & N). apply (outside_A (tdim c) pattern M ps _ s u); try assumption. apply (HL s), Hu.
Qed.

(** * The sets *)
Lemma in_range n i : In i (range n) <-> i < n.
Proof. unfold range. rewrite in_seq. lia. Qed.
Lemma units_scalar ms : units [0] (fun _ u => In u ms) (map scalar ms).
Proof.
  split.
  - intros s u [<-|[]] Hu. apply in_map_iff. exists u. split; [reflexivity|exact Hu].
  - intros p Hp. apply in_map_iff in Hp as (u & <- & Hu). exists 0, u. split; [left; reflexivity|]. split; [exact Hu|reflexivity].
Qed.
Lemma units_vectorise r ms : units (range r) (fun _ u => In u ms) (vectorise r ms).
Proof.
  split.
  - intros s u Hs Hu. apply in_flat_map. exists u. split; [exact Hu|]. apply in_map_iff. exists s. split; [reflexivity|exact Hs].
  - intros p Hp. apply in_flat_map in Hp as (u & Hu & Hp). apply in_map_iff in Hp as (s & <- & Hs). exists s, u. split; [exact Hs|]. split; [exact Hu|reflexivity].
Qed.
Lemma nth_range_map {A} (f : nat -> A) n i d : i < n -> nth i (map f (range n)) d = f i.
Proof.
  intros H. rewrite (nth_indep _ d (f 0)) by (rewrite map_length, length_range; exact H). rewrite map_nth. f_equal. unfold range. apply seq_nth, H.
Qed.
Lemma sym_entries_unit r ix s u : (forall i, In i ix -> i < r) -> sym_entries ix (map (fun j => if s =? j then [(1%Z, u)] else []) (range r)) = unit ix s u.
Proof. intros H. unfold sym_entries, unit. apply map_ext_in. intros i Hi. rewrite nth_range_map by (apply H, Hi). reflexivity. Qed.
Lemma units_sym r ix ms : (forall i, In i ix <-> i < r) -> units ix (fun _ u => In u ms) (map (sym_entries ix) (vectorise r ms)).
Proof.
  intros H. assert (H' : forall i, In i ix -> i < r) by (intros i; apply H). destruct (units_vectorise r ms) as (U1 & U2). split.
  - intros s u Hs Hu. rewrite <- (sym_entries_unit r ix s u H'). apply in_map. apply (U1 s u); [apply in_range, H, Hs|exact Hu].
  - intros p Hp. apply in_map_iff in Hp as (q & <- & Hq). destruct (U2 q Hq) as (s & u & Hs & Hu & ->). exists s, u.
    split; [apply H, in_range, Hs|]. split; [exact Hu|]. apply sym_entries_unit, H'.
Qed.
Lemma units_ext pattern (M N : nat -> mono -> Prop) ps : (forall s u, In s pattern -> (M s u <-> N s u)) -> units pattern M ps -> units pattern N ps.
Proof.
  intros H (U1 & U2). split.
  - intros s u Hs Hu. apply U1; [exact Hs|apply H; assumption].
  - intros p Hp. destruct (U2 p Hp) as (s & u & Hs & Hu & E). exists s, u. split; [exact Hs|]. split; [apply H; assumption|exact E].
Qed.
Lemma units_app pattern (M N : nat -> mono -> Prop) ps qs : units pattern M ps -> units pattern N qs -> units pattern (fun s u => M s u \/ N s u) (ps ++ qs).
Proof.
  intros (A1 & A2) (B1 & B2). split.
  - intros s u Hs [H|H]; apply in_or_app; [left; apply A1|right; apply B1]; assumption.
  - intros p Hp. apply in_app_or in Hp as [Hp|Hp]; [destruct (A2 p Hp) as (s & u & Hs & Hu & E)|destruct (B2 p Hp) as (s & u & Hs & Hu & E)]; exists s, u; tauto.
Qed.

Lemma poly1d_in d n l : 1 <= d <= 3 -> polynomial_set_1d d n = Ok l -> forall u, In u l <-> complete d n u.
Proof.
  intros Hd E u. destruct (polynomial_set_1d_ok d n Hd) as (l' & E' & _ & H & _). rewrite E in E'. injection E' as <-. rewrite H. reflexivity.
Qed.
Lemma quo1d_in d n : d <= 3 -> forall u, In u (quolynomial_set_1d d n) <-> length u = d /\ forall i, nth i u 0 <= n.
Proof.
  intros Hd u. destruct (quolynomial_set_1d_ok d n Hd) as (_ & H & _). rewrite H. unfold tensor_mono. split; intros (L & F); (split; [exact L|]).
  - intros i. destruct (lt_dec i (length u)) as [Hi|Hi]; [|rewrite nth_overflow by lia; lia]. rewrite Forall_forall in F. apply F, nth_In, Hi.
  - apply Forall_forall. intros e He. destruct (In_nth u e 0 He) as (i & _ & <-). apply F.
Qed.
Lemma serendipity_in d n l : 1 <= d <= 3 -> polynomial_set_1d d n = Ok l ->
  forall u, In u (l ++ serendipity_set_1d d n) <-> length u = d /\ superlinear_degree u <= n.
Proof.
  intros Hd E u. rewrite in_app_iff, (poly1d_in d n l Hd E), (serendipity_set_1d_in d n u Hd).
  pose proof (superlinear_split u) as X. change (mdeg u) with (list_sum u) in *. unfold complete. split; [intros [H|H]; split; try tauto; lia|].
  intros (H1 & H2). destruct (le_lt_dec (list_sum u) n) as [K|K]; [left|right]; tauto.
Qed.
Lemma prism_in n l : prism_polynomial_set_1d 3 n = Ok l -> forall u, In u l <-> lagrange_monomial CPrism n u.
Proof.
  intros E u. destruct (prism_polynomial_set_1d_ok n) as (l' & E' & (_ & H & _) & _). rewrite E in E'. injection E' as <-. rewrite H. split.
  - intros (i & j & k & -> & H1 & H2). cbn. lia.
  - intros (L & H1 & H2). destruct u as [|i [|j [|k [|]]]]; try discriminate L. exists i, j, k. cbn in *. split; [reflexivity|]. lia.
Qed.
Lemma units_fields d (M : nat -> mono -> Prop) ps : lists_unit_fields ps d M -> units (range d) M ps.
Proof.
  intros (_ & H). split.
  - intros s u Hs Hu. apply H. exists s, u. apply in_range in Hs. split; [exact Hs|]. split; [exact Hu|]. apply map_unit_field.
  - intros p Hp. apply H in Hp as (s & u & Hs & Hu & F). exists s, u. split; [apply in_range, Hs|]. split; [exact Hu|].
    apply (unit_field_unique d s u); [exact F|apply map_unit_field].
Qed.

(** * The numbers *)
(** bounds of the exponents of ReggeTP on a hexahedron: entry s, variable i *)
Definition tp3 (n s i : nat) : nat :=
  n + match s, i with 0, 1 | 0, 2 | 1, 2 | 2, 1 | 3, 0 | 3, 2 | 4, 0 | 5, 0 | 5, 1 => 1 | _, _ => 0 end.
Ltac known_mono := cbn beta in *; repeat match goal with
  | H : lagrange_monomial _ _ _ |- _ => cbn [lagrange_monomial tdim] in H
  | H : complete _ _ _ |- _ => destruct H as (? & ?)
  | H : _ /\ _ |- _ => destruct H
  | H : length ?u = _ |- _ => is_var u; destruct u as [|? [|? [|? [|]]]]; try discriminate H; clear H
  | H : In _ [_; _] |- _ => destruct H as [<-|[<-|[]]]
  | H : In _ [_; _; _] |- _ => destruct H as [<-|[<-|[<-|[]]]]
  | H : forall i, nth i _ 0 <= @?f i |- _ => pose proof (H 0); pose proof (H 1); pose proof (H 2); clear H
  end; unfold tp3 in *; cbn in *.
Ltac show_mono := cbn beta; cbn [lagrange_monomial tdim]; unfold complete; repeat match goal with
  | |- _ /\ _ => split
  | |- length _ = _ => reflexivity
  | |- forall i : nat, _ => let i := fresh in intros i; destruct i as [|[|[|[|i]]]]
  end; unfold tp3; cbn; try nia.
Ltac upto := intros; known_mono; show_mono.
Ltac witness s u := let m := fresh "m" in let Hm := fresh in intros m Hm;
  exists s, (u m); split; [first [assumption|cbn; tauto]|split; [solve [show_mono]|let K := fresh in intros K; known_mono; nia]].


(** tries the usual monomials *)
Ltac some_mono n s := first
  [ witness s (fun m : nat => [m]) | witness s (fun _ : nat => [n])
  | witness s (fun m : nat => [m; 0]) | witness s (fun m : nat => [0; m]) | witness s (fun m : nat => [m; m])
  | witness s (fun _ : nat => [n; 0]) | witness s (fun _ : nat => [n; n])
  | witness s (fun m : nat => [m; 0; 0]) | witness s (fun m : nat => [0; m; 0]) | witness s (fun m : nat => [m; m; m])
  | witness s (fun _ : nat => [n; 0; 0]) | witness s (fun _ : nat => [n; n; n]) | witness s (fun _ : nat => [n; 0; n]) | witness s (fun m : nat => [0; 0; m]) ].

Lemma total_degrees pattern c ps n : units pattern (fun _ => complete (tdim c) n) ps -> In 0 pattern -> In c [CInterval; CTriangle; CTetrahedron] ->
  degrees_right pattern c (span ps) (Z.of_nat n) (Z.of_nat n) (Z.of_nat n) (Z.of_nat n).
Proof.
  intros U H0 Hc. apply (degrees_units pattern c ps (fun _ => complete (tdim c) n) _ _ _ _ U); destruct Hc as [<-|[<-|[<-|[]]]]; try solve [upto]; some_mono n 0.
Qed.
Lemma tensor_degrees pattern c ps n : units pattern (fun _ u => length u = tdim c /\ forall i, nth i u 0 <= n) ps -> In 0 pattern -> In c [CQuadrilateral; CHexahedron] ->
  degrees_right pattern c (span ps) (Z.of_nat n) (Z.of_nat n) (Z.of_nat n) (Z.of_nat n * Z.of_nat (tdim c)).
Proof.
  intros U H0 Hc. apply (degrees_units pattern c ps _ _ _ _ _ U); destruct Hc as [<-|[<-|[]]]; try solve [upto]; some_mono n 0.
Qed.
Lemma prism_degrees pattern ps n : units pattern (fun _ => lagrange_monomial CPrism n) ps -> In 0 pattern ->
  degrees_right pattern CPrism (span ps) (Z.of_nat n) (Z.of_nat n) (Z.of_nat n) (Z.of_nat n * 2).
Proof.
  intros U H0. apply (degrees_units pattern CPrism ps _ _ _ _ _ U); try solve [upto]; some_mono n 0.
Qed.
Lemma dpc_degrees pattern c ps n : units pattern (fun _ => complete (tdim c) n) ps -> In 0 pattern -> In c [CInterval; CQuadrilateral; CHexahedron] ->
  degrees_right pattern c (span ps) (Z.of_nat n / Z.of_nat (tdim c)) (Z.of_nat n) (Z.of_nat n) (Z.of_nat n).
Proof.
  intros U H0 Hc. remember (Z.of_nat n / Z.of_nat (tdim c))%Z as q eqn:Eq.
  assert (D : (Z.of_nat (tdim c) * q <= Z.of_nat n < Z.of_nat (tdim c) * q + Z.of_nat (tdim c))%Z).
  { assert (P : (0 < Z.of_nat (tdim c))%Z) by (destruct Hc as [<-|[<-|[<-|[]]]]; cbn; lia).
    pose proof (Z.div_mod (Z.of_nat n) (Z.of_nat (tdim c)) ltac:(lia)). pose proof (Z.mod_pos_bound (Z.of_nat n) (Z.of_nat (tdim c)) P). subst q. lia. }
  clear Eq.
  apply (degrees_units pattern c ps _ _ _ _ _ U);
    (destruct Hc as [<-|[<-|[<-|[]]]];
     [assert (D' : q = Z.of_nat n) by (cbn [tdim] in D; lia)|assert (D' : (q + q <= Z.of_nat n < q + q + 2)%Z) by (cbn [tdim] in D; lia)
     |assert (D' : (q + q + q <= Z.of_nat n < q + q + q + 3)%Z) by (cbn [tdim] in D; lia)]); clear D; try solve [upto]; some_mono n 0.
Qed.
Lemma serendipity_degrees c ps n : 1 <= n -> units [0] (fun _ u => length u = tdim c /\ superlinear_degree u <= n) ps -> In c [CInterval; CQuadrilateral; CHexahedron] ->
  degrees_right [0] c (span ps) (if Z.of_nat n <? Z.of_nat (tdim c) then 1 else Z.of_nat n / Z.of_nat (tdim c))%Z (Z.of_nat n) (Z.of_nat n)
    (Z.of_nat n + Z.of_nat (tdim c) - 1).
Proof.
  intros Hn U Hc. remember (if Z.of_nat n <? Z.of_nat (tdim c) then 1 else Z.of_nat n / Z.of_nat (tdim c))%Z as q eqn:Eq.
  assert (D : (q = 1 /\ Z.of_nat n < Z.of_nat (tdim c) \/ 1 <= q /\ Z.of_nat (tdim c) * q <= Z.of_nat n < Z.of_nat (tdim c) * q + Z.of_nat (tdim c))%Z).
  { assert (P : (0 < Z.of_nat (tdim c))%Z) by (destruct Hc as [<-|[<-|[<-|[]]]]; cbn; lia).
    pose proof (Z.div_mod (Z.of_nat n) (Z.of_nat (tdim c)) ltac:(lia)). pose proof (Z.mod_pos_bound (Z.of_nat n) (Z.of_nat (tdim c)) P). subst q.
    destruct (Z.ltb_spec (Z.of_nat n) (Z.of_nat (tdim c))); [left; lia|right]. split; [|lia]. nia. }
  clear Eq.
  assert (S1 : forall u, superlinear_degree u <= list_sum u) by (intros u; induction u as [|e u IH]; [reflexivity|]; change (list_sum (e :: u)) with (e + list_sum u); cbn [superlinear_degree]; destruct (e =? 1); lia).
  assert (S2 : forall (u : mono) m, (forall i, nth i u 0 <= m) -> 2 <= m -> superlinear_degree u <= length u * m).
  { intros u m. induction u as [|e u IH]; intros H M; [cbn; lia|]. specialize (IH (fun i => H (S i)) M). specialize (H 0).
    cbn [nth superlinear_degree length] in *. destruct (e =? 1); nia. }
  assert (S3 : forall (u : mono), (forall i, nth i u 0 <= 1) -> superlinear_degree u = 0).
  { intros u. induction u as [|e u IH]; intros H; [reflexivity|]. specialize (IH (fun i => H (S i))). specialize (H 0). cbn [nth superlinear_degree] in *.
    destruct (Nat.eqb_spec e 1); lia. }
  assert (S4 : forall (u : mono) i, nth i u 0 <= 1 \/ nth i u 0 <= superlinear_degree u).
  { intros u. induction u as [|e u IH]; intros [|i]; cbn [nth superlinear_degree]; try lia; [destruct (Nat.eqb_spec e 1); lia|].
    specialize (IH i). lia. }
  assert (S5 : forall u, u <> [] -> list_sum u <= Nat.max 1 (superlinear_degree u) + (length u - 1)).
  { intros u H. induction u as [|e u IH]; [contradiction|]. change (list_sum (e :: u)) with (e + list_sum u). cbn [superlinear_degree length].
    destruct u as [|e' u']; [change (list_sum (@nil nat)) with 0; cbn [superlinear_degree length]; destruct (Nat.eqb_spec e 1); lia|]. specialize (IH ltac:(discriminate)). remember (e' :: u') as w.
    assert (1 <= length w) by (subst w; cbn; lia). destruct (Nat.eqb_spec e 1); lia. }
  assert (S6 : forall m d, 2 <= m -> superlinear_degree (repeat m d) = d * m).
  { intros m d Hm. induction d as [|d IH]; [reflexivity|]. cbn [repeat superlinear_degree]. rewrite IH. destruct (Nat.eqb_spec m 1); lia. }
  assert (T : 1 <= tdim c <= 3) by (destruct Hc as [<-|[<-|[<-|[]]]]; cbn; lia).
  assert (LM : forall m u, lagrange_monomial c m u <-> length u = tdim c /\ forall i, nth i u 0 <= m).
  { intros m u. destruct Hc as [<-|[<-|[<-|[]]]]; try reflexivity. cbn. unfold complete. split; intros (L & H); (split; [exact L|]).
    - destruct u as [|a [|]]; try discriminate L. intros [|[|i]]; cbn in *; lia.
    - destruct u as [|a [|]]; try discriminate L. specialize (H 0). cbn in *. lia. }
  assert (NR : forall (x : nat) d i, nth i (repeat x d) 0 <= x).
  { intros x d. induction d as [|d IH]; intros [|i]; cbn; try lia. apply IH. }
  assert (LZ : forall d, list_sum (repeat 0 d) = 0) by (induction d as [|d IH]; [reflexivity|exact IH]).
  assert (SZ : forall d, superlinear_degree (repeat 0 d) = 0) by (induction d as [|d IH]; [reflexivity|exact IH]).
  apply (degrees_units [0] c ps _ _ _ _ _ U).
  - intros s u (L & _). exact L.
  - intros m s u Hm _ HL. apply LM in HL as (L & H). split; [exact L|]. destruct (le_lt_dec m 1) as [M|M].
    + rewrite S3; [lia|]. intros i. specialize (H i). lia.
    + pose proof (S2 u m H ltac:(lia)). rewrite L in *. nia.
  - intros m Hm. exists 0, (repeat m (tdim c)). split; [left; reflexivity|]. split.
    + apply LM. split; [apply repeat_length|]. apply NR.
    + intros (_ & K). assert (2 <= m) by lia. rewrite S6 in K by assumption. nia.
  - intros m s u Hm _ (L & H). apply LM. split; [exact L|]. intros i. specialize (S4 u i). lia.
  - intros m Hm. exists 0, (n :: repeat 0 (tdim c - 1)). split; [left; reflexivity|]. split.
    + split; [cbn; rewrite repeat_length; lia|]. cbn [superlinear_degree]. rewrite SZ. destruct (n =? 1); lia.
    + intros K. apply LM in K as (_ & K). specialize (K 0). cbn in K. lia.
  - intros m s u Hm _ (L & H). split; [exact L|]. specialize (S1 u). lia.
  - intros m Hm. exists 0, (m :: repeat 0 (tdim c - 1)). split; [left; reflexivity|]. split.
    + split; [cbn; rewrite repeat_length; lia|]. change (m + list_sum (repeat 0 (tdim c - 1)) <= m). rewrite LZ. lia.
    + intros (_ & K). cbn [superlinear_degree] in K. rewrite SZ in K. destruct (Nat.eqb_spec m 1); lia.
  - intros m s u Hm _ (L & H). split; [exact L|]. assert (u <> []) by (intros ->; cbn in L; lia). specialize (S5 u ltac:(assumption)). lia.
  - intros m Hm. exists 0, (n :: repeat 1 (tdim c - 1)). split; [left; reflexivity|]. split.
    + split; [cbn; rewrite repeat_length; lia|]. cbn [superlinear_degree]. rewrite S3 by (intros i; apply NR). destruct (n =? 1); lia.
    + intros (_ & K). change (n + list_sum (repeat 1 (tdim c - 1)) <= m) in K.
      assert (X : forall d, list_sum (repeat 1 d) = d) by (induction d as [|d IH]; [reflexivity|cbn; f_equal; exact IH]). rewrite X in K. lia.
Qed.

Definition own (s : nat) (a b : nat) (i : nat) : nat := if i =? s then a else b.
Lemma aniso_degrees c ps a b : units (range (tdim c)) (fun s u => length u = tdim c /\ forall i, nth i u 0 <= own s a b i) ps -> In c [CQuadrilateral; CHexahedron] ->
  degrees_right (range (tdim c)) c (span ps) (Z.of_nat (Nat.min a b)) (Z.of_nat (Nat.max a b)) (Z.of_nat (Nat.min a b)) (Z.of_nat (a + (tdim c - 1) * b)).
Proof.
  intros U Hc.
  apply (degrees_units (range (tdim c)) c ps _ _ _ _ _ U); (destruct Hc as [<-|[<-|[]]]; change (range (tdim CQuadrilateral)) with [0; 1] in *; change (range (tdim CHexahedron)) with [0; 1; 2] in *);
    try solve [upto].
  all: destruct (le_lt_dec a b); try solve [some_mono a 0|some_mono b 0]; first [witness 0 (fun _ : nat => [0; b])|witness 0 (fun _ : nat => [0; b; 0])|witness 0 (fun _ : nat => [a; b])|witness 0 (fun _ : nat => [a; b; b])].
Qed.

(** * Sets that are written out *)
Ltac in_list := repeat match goal with
  | H : In _ (let _ := _ in _) |- _ => cbv zeta in H
  | H : In _ (flat_map _ _) |- _ => apply in_flat_map in H; destruct H as (? & ? & H)
  | H : In _ (map _ _) |- _ => apply in_map_iff in H; destruct H as (? & <- & H)
  | H : In _ (_ ++ _) |- _ => apply in_app_or in H; destruct H as [H|H]
  | H : In _ (range _) |- _ => apply in_range in H
  | H : In _ (range2 _ _) |- _ => apply in_range2 in H
  | H : In _ [_; _] |- _ => destruct H as [<-|[<-|[]]]
  | H : In _ [_; _; _] |- _ => destruct H as [<-|[<-|[<-|[]]]]
  end.
Lemma in_flat {A B} (f : A -> list B) l a b : In a l -> In b (f a) -> In b (flat_map f l).
Proof. intros H1 H2. apply in_flat_map. exists a. split; assumption. Qed.
Lemma in_mapped {A B} (f : A -> B) l a b : b = f a -> In a l -> In b (map f l).
Proof. intros -> H. apply in_map, H. Qed.

Lemma units_two_way A B : units [0; 1] (fun s u => length u = 2 /\ nth s u 0 < A /\ nth (1 - s) u 0 < B)
  (flat_map (fun i => map (fun j => [[(1%Z, [i; j])]; []]) (range B)) (range A)
   ++ flat_map (fun i => map (fun j => [[]; [(1%Z, [i; j])]]) (range A)) (range B)).
Proof.
  split.
  - intros s u [<-|[<-|[]]] (L & H1 & H2); destruct u as [|i [|j [|]]]; try discriminate L; cbn in H1, H2; apply in_or_app; [left|right];
      (apply (in_flat _ _ i); [apply in_range; lia|]); (apply (in_mapped _ _ j); [reflexivity|apply in_range; lia]).
  - intros p Hp. in_list; [exists 0|exists 1]; eexists; (split; [cbn; tauto|]); (split; [|reflexivity]); cbn; lia.
Qed.

Lemma units_bdfm_quad n : units [0; 1] (fun s u => length u = 2 /\ list_sum u = n /\ 1 <= nth s u 0)
  (flat_map (fun i => let j := n - i in [[[(1%Z, [i; j])]; []]; [[]; [(1%Z, [j; i])]]]) (range2 1 (n + 1))).
Proof.
  split.
  - intros s u [<-|[<-|[]]] (L & H1 & H2); destruct u as [|i [|j [|]]]; try discriminate L; cbn in H1, H2.
    + apply (in_flat _ _ i); [apply in_range2; lia|]. left. replace (n - i) with j by lia. reflexivity.
    + apply (in_flat _ _ j); [apply in_range2; lia|]. right. left. replace (n - j) with i by lia. reflexivity.
  - intros p Hp. in_list; [exists 0|exists 1]; eexists; (split; [cbn; tauto|]); (split; [|reflexivity]); cbn; lia.
Qed.
Lemma units_bdfm_hex n : units [0; 1; 2] (fun s u => length u = 3 /\ list_sum u = n /\ 1 <= nth s u 0)
  (flat_map (fun i => flat_map (fun j => let k := n - i - j in
     [[[(1%Z, [i; j; k])]; []; []]; [[]; [(1%Z, [j; i; k])]; []]; [[]; []; [(1%Z, [j; k; i])]]])
     (range (n + 1 - i))) (range2 1 (n + 1))).
Proof.
  split.
  - intros s u Hs (L & H1 & H2). destruct u as [|i [|j [|k [|]]]]; try discriminate L. cbn in H1, Hs. destruct Hs as [<-|[<-|[<-|[]]]]; cbn in H2.
    + apply (in_flat _ _ i); [apply in_range2; lia|]. apply (in_flat _ _ j); [apply in_range; lia|]. left. replace (n - i - j) with k by lia. reflexivity.
    + apply (in_flat _ _ j); [apply in_range2; lia|]. apply (in_flat _ _ i); [apply in_range; lia|]. right. left. replace (n - j - i) with k by lia. reflexivity.
    + apply (in_flat _ _ k); [apply in_range2; lia|]. apply (in_flat _ _ i); [apply in_range; lia|]. right. right. left. replace (n - k - i) with j by lia. reflexivity.
  - intros p Hp. in_list; [exists 0|exists 1|exists 2]; eexists; (split; [cbn; tauto|]); (split; [|reflexivity]); cbn; lia.
Qed.
Lemma bdfm_degrees c ps n : 1 <= n -> units (range (tdim c)) (fun s u => length u = tdim c /\ (list_sum u <= n - 1 \/ list_sum u = n /\ 1 <= nth s u 0)) ps -> In c [CQuadrilateral; CHexahedron] ->
  degrees_right (range (tdim c)) c (span ps) (Z.of_nat n / Z.of_nat (tdim c)) (Z.of_nat n) (Z.of_nat n - 1) (Z.of_nat n).
Proof.
  intros Hn U Hc. remember (Z.of_nat n / Z.of_nat (tdim c))%Z as q eqn:Eq.
  assert (D : (Z.of_nat (tdim c) * q <= Z.of_nat n < Z.of_nat (tdim c) * q + Z.of_nat (tdim c))%Z).
  { assert (P : (0 < Z.of_nat (tdim c))%Z) by (destruct Hc as [<-|[<-|[]]]; cbn; lia).
    pose proof (Z.div_mod (Z.of_nat n) (Z.of_nat (tdim c)) ltac:(lia)). pose proof (Z.mod_pos_bound (Z.of_nat n) (Z.of_nat (tdim c)) P). subst q. lia. }
  clear Eq.
  apply (degrees_units _ c ps _ _ _ _ _ U);
    (destruct Hc as [<-|[<-|[]]];
     [assert (D' : (q + q <= Z.of_nat n < q + q + 2)%Z) by (cbn [tdim] in D; lia)
     |assert (D' : (q + q + q <= Z.of_nat n < q + q + q + 3)%Z) by (cbn [tdim] in D; lia)]); clear D; 
    change (range (tdim CQuadrilateral)) with [0; 1] in *; change (range (tdim CHexahedron)) with [0; 1; 2] in *; try solve [upto]; some_mono n 0.
Qed.

Lemma units_regge_tp2 n : units sym2 (fun s u => length u = 2 /\ nth 0 u 0 <= n + (if s =? 2 then 1 else 0) /\ nth 1 u 0 <= n + (if s =? 0 then 1 else 0)) (regge_tp_poly 2 n).
Proof.
  split.
  - intros s u Hs (L & H1 & H2). destruct u as [|i [|j [|]]]; try discriminate L. cbn in Hs. destruct Hs as [<-|[<-|[<-|[<-|[]]]]]; cbn in H1, H2; apply in_or_app.
    + left. apply (in_flat _ _ i); [apply in_range; lia|]. apply (in_flat _ _ j); [apply in_range; lia|]. left. reflexivity.
    + right. apply (in_flat _ _ i); [apply in_range; lia|]. apply (in_mapped _ _ j); [reflexivity|apply in_range; lia].
    + right. apply (in_flat _ _ i); [apply in_range; lia|]. apply (in_mapped _ _ j); [reflexivity|apply in_range; lia].
    + left. apply (in_flat _ _ j); [apply in_range; lia|]. apply (in_flat _ _ i); [apply in_range; lia|]. right. left. reflexivity.
  - intros p Hp. unfold regge_tp_poly in Hp. in_list; [exists 0|exists 2|exists 1]; eexists; (split; [cbn; tauto|]); (split; [|reflexivity]); cbn; lia.
Qed.
Lemma units_regge_tp3 n : units sym3 (fun s u => length u = 3 /\ forall i, nth i u 0 <= tp3 n s i) (regge_tp_poly 3 n).
Proof.
  split.
  - intros s u Hs (L & H). destruct u as [|i [|j [|k [|]]]]; try discriminate L. pose proof (H 0) as H0. pose proof (H 1) as H1. pose proof (H 2) as H2. clear H L.
    assert (Hs' : s = 0 \/ s = 1 \/ s = 2 \/ s = 3 \/ s = 4 \/ s = 5) by (cbn in Hs; lia). clear Hs.
    destruct Hs' as [->|[->|[->|[->|[->| ->]]]]]; unfold tp3 in *; cbn in H0, H1, H2; apply in_or_app.
    + left. apply (in_flat _ _ i); [apply in_range; lia|]. apply (in_flat _ _ j); [apply in_range; lia|]. apply (in_flat _ _ k); [apply in_range; lia|]. left. reflexivity.
    + right. apply (in_flat _ _ i); [apply in_range; lia|]. apply (in_flat _ _ j); [apply in_range; lia|]. apply (in_flat _ _ k); [apply in_range; lia|]. left. reflexivity.
    + right. apply (in_flat _ _ i); [apply in_range; lia|]. apply (in_flat _ _ k); [apply in_range; lia|]. apply (in_flat _ _ j); [apply in_range; lia|]. right. left. reflexivity.
    + left. apply (in_flat _ _ j); [apply in_range; lia|]. apply (in_flat _ _ i); [apply in_range; lia|]. apply (in_flat _ _ k); [apply in_range; lia|]. right. left. reflexivity.
    + right. apply (in_flat _ _ j); [apply in_range; lia|]. apply (in_flat _ _ k); [apply in_range; lia|]. apply (in_flat _ _ i); [apply in_range; lia|]. right. right. left. reflexivity.
    + left. apply (in_flat _ _ k); [apply in_range; lia|]. apply (in_flat _ _ i); [apply in_range; lia|]. apply (in_flat _ _ j); [apply in_range; lia|]. right. right. left. reflexivity.
  - intros p Hp. unfold regge_tp_poly in Hp. in_list; [exists 0|exists 3|exists 5|exists 1|exists 2|exists 4]; eexists; (split; [cbn; tauto|]); (split; [|reflexivity]);
      (split; [reflexivity|]); intros [|[|[|[|i]]]]; unfold tp3; cbn; lia.
Qed.
Lemma regge_tp2_degrees ps n : units sym2 (fun s u => length u = 2 /\ nth 0 u 0 <= n + (if s =? 2 then 1 else 0) /\ nth 1 u 0 <= n + (if s =? 0 then 1 else 0)) ps ->
  degrees_right sym2 CQuadrilateral (span ps) (Z.of_nat n) (Z.of_nat (n + 1)) (Z.of_nat n) (Z.of_nat (n + 1 + n)).
Proof.
  intros U. apply (degrees_units _ CQuadrilateral ps _ _ _ _ _ U).
  - intros s u (L & _). exact L.
  - intros m s u Hm Hs H. known_mono. destruct (s =? 2), (s =? 0); show_mono.
  - witness 0 (fun m : nat => [m; 0]).
  - intros m s u Hm Hs (L & H). destruct u as [|i [|j [|]]]; try discriminate L. cbn [nth] in H. destruct (s =? 2), (s =? 0); show_mono.
  - witness 0 (fun _ : nat => [0; n + 1]).
  - intros m s u Hm Hs H. known_mono. destruct (s =? 2), (s =? 0); show_mono.
  - witness 0 (fun m : nat => [m; 0]).
  - intros m s u Hm Hs (L & H). destruct u as [|i [|j [|]]]; try discriminate L. cbn [nth] in H. destruct (Nat.eqb_spec s 2), (Nat.eqb_spec s 0); show_mono.
  - witness 0 (fun _ : nat => [n; n + 1]).
Qed.
Lemma regge_tp3_degrees ps n : units sym3 (fun s u => length u = 3 /\ forall i, nth i u 0 <= tp3 n s i) ps ->
  degrees_right sym3 CHexahedron (span ps) (Z.of_nat n) (Z.of_nat (n + 1)) (Z.of_nat n) (Z.of_nat (n + n + n + 2)).
Proof.
  intros U. 
  assert (T : forall s i, n <= tp3 n s i <= n + 1) by (intros s i; unfold tp3; destruct s as [|[|[|[|[|[|]]]]]], i as [|[|[|]]]; lia).
  assert (T3 : forall s, tp3 n s 0 + tp3 n s 1 + tp3 n s 2 <= n + n + n + 2) by (intros s; unfold tp3; destruct s as [|[|[|[|[|[|]]]]]]; lia).
  apply (degrees_units _ CHexahedron ps _ _ _ _ _ U).
  - intros s u (L & _). exact L.
  - intros m s u Hm Hs (L & H). split; [exact L|]. intros i. specialize (H i). specialize (T s i). lia.
  - witness 0 (fun m : nat => [m; 0; 0]).
  - intros m s u Hm Hs (L & H). split; [exact L|]. intros i. specialize (H i). specialize (T s i). lia.
  - witness 0 (fun _ : nat => [0; n + 1; 0]).
  - intros m s u Hm Hs (L & H). split; [exact L|]. intros i. specialize (T s i). destruct u as [|x [|y [|z [|]]]]; try discriminate L. cbn in H. 
    destruct i as [|[|[|[|i]]]]; cbn [nth]; lia.
  - witness 0 (fun m : nat => [m; 0; 0]).
  - intros m s u Hm Hs (L & H). split; [exact L|]. specialize (T3 s). pose proof (H 0). pose proof (H 1). pose proof (H 2). destruct u as [|x [|y [|z [|]]]]; try discriminate L. cbn [nth] in *.
    cbn [list_sum fold_right]. lia.
  - witness 0 (fun _ : nat => [n; n + 1; n + 1]).
Qed.
