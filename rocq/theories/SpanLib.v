(** Bases of spaces of functions given by as many functions as unisolvent functionals. *)
From Coq Require Import Arith Reals Lra Lia List.
From Verif Require Import Base PolyLib LinAlg CiarletModel CiarletProofs PropertiesCiarlet LagrangeUnisolvence.
Import ListNotations.
Open Scope R_scope.

Lemma lincomb_subspace (W : sfun -> Prop) cs fs : subspace W -> Forall W fs -> W (lincomb cs fs).
Proof.
  intros (H0 & Hs & He) F. revert cs. induction F as [|f fs Hf F IH]; intros [|c cs]; try exact H0. exact (Hs c f _ Hf (IH cs)).
Qed.

Lemma independent_nth fs (c : nat -> R) : independent fs -> (forall v, combination c fs v = 0) -> forall i, (i < length fs)%nat -> c i = 0.
Proof.
  intros I H. specialize (I (map c (range (length fs))) ltac:(rewrite map_length, length_range; reflexivity)).
  specialize (I (fun v => eq_trans (eq_sym (combination_lincomb c fs v)) (H v))). rewrite Forall_forall in I.
  intros i Hi. apply I. apply in_map, in_range, Hi.
Qed.

(** functions of a space with unisolvent functionals: as many independent functions as functionals are a basis, and the
    element they define has dual basis functions *)
Lemma square_element (W : sfun -> Prop) (fs : list sfun) (dofs : list (sfun -> R)) :
  subspace W -> Forall (linear_on W) dofs -> Forall W fs -> independent fs -> length fs = length dofs ->
  (forall f, W f -> (forall l, In l dofs -> l f = 0) -> forall v, f v = 0) ->
  is_basis fs W /\
  exists phi, get_basis_functions fs dofs = Ok phi /\ length phi = length dofs /\
    (forall i j, (i < length dofs)%nat -> (j < length dofs)%nat -> nth i dofs (fun _ => 0) (nth j phi (fun _ => 0)) = if (i =? j)%nat then 1 else 0) /\
    Forall W phi /\
    (forall f, W f -> forall v, f v = sum (length dofs) (fun i => nth i dofs (fun _ => 0) f * nth i phi (fun _ => 0) v)).
Proof.
  intros HS Hd Hf I L U.
  destruct (C64_exists_iff_unisolvent point W fs dofs HS Hf Hd) as [_ X]. destruct (X L) as [[_ X1] _]. clear X.
  assert (Us : unisolvent fs dofs).
  { intros c Hc. apply independent_nth; [exact I|]. apply U; [apply comb_subspace; assumption|].
    intros l Hl. destruct (In_nth dofs l (fun _ => 0) Hl) as (i & Hi & <-). exact (Hc i Hi). }
  destruct (X1 Us) as [phi Hphi].
  destruct (C16_ciarlet_duality point W fs dofs phi HS Hf Hd Hphi) as (L1 & D1 & S1 & R1).
  assert (Wphi : Forall W phi).
  { apply Forall_forall. intros f Hin. destruct (In_nth phi f (fun _ => 0) Hin) as (i & Hi & Ei).
    destruct (proj1 (S1 f)) as [c Hc].
    - exists (fun k => if (k =? i)%nat then 1 else 0). intros v. unfold combination.
      rewrite (sum_single _ _ i) by (auto; intros k _ Nk; rewrite (proj2 (Nat.eqb_neq k i) Nk); ring). rewrite Nat.eqb_refl, Ei. ring.
    - apply (proj2 (proj2 HS) (combination c fs)); [intros x; symmetry; apply Hc|apply comb_subspace; assumption]. }
  assert (Lin : Forall (linear_on W) dofs) by exact Hd. rewrite Forall_forall in Lin.
  assert (Exp : forall f, W f -> same f (combination (fun i => dof_value dofs i f) phi)).
  { intros f Hw x. set (g := combination (fun i => dof_value dofs i f) phi).
    assert (Wg : W g) by (apply comb_subspace; assumption).
    assert (E : forall v, - (1) * g v + f v = 0).
    { apply (U (fun v => - (1) * g v + f v)); [apply HS; assumption|]. intros l Hl.
      destruct (Lin l Hl) as [La Le]. change (-1) with (- (1)). rewrite (La (- (1)) g f Wg Hw). destruct (In_nth dofs l (fun _ => 0) Hl) as (i & Hi & Ei).
      assert (Ev : forall h, dof_value dofs i h = l h) by (intros h; exact (f_equal (fun m => m h) Ei)).
      assert (Q : l g = l f); [|rewrite Q; ring]. unfold g. rewrite (comb_linear W l _ phi HS (Lin l Hl) Wphi).
      rewrite L1. rewrite (sum_single _ _ i); [|exact Hi|].
      - pose proof (D1 i i Hi Hi) as D. rewrite Ev in D |- *. rewrite D, Nat.eqb_refl. ring.
      - intros k Hk Nk. pose proof (D1 i k Hi Hk) as D. rewrite Ev in D. rewrite D.
        rewrite (proj2 (Nat.eqb_neq i k)) by auto. ring. }
    specialize (E x). change (f x = g x). lra. }
  split; [split; [exact I|]; split; [apply Forall_forall, Hf|]|].
  - intros f Hw. destruct (proj1 (S1 f) (ex_intro (fun c => same f (combination c phi)) _ (Exp f Hw))) as [c Hc]. exists (map c (range (length fs))).
    split; [rewrite map_length, length_range; reflexivity|]. intros v. rewrite (Hc v). apply combination_lincomb.
  - exists phi. split; [exact Hphi|]. split; [exact L1|]. split; [exact D1|]. split; [exact Wphi|]. intros f Hw v. rewrite (Exp f Hw v). unfold combination. rewrite L1. reflexivity.
Qed.
