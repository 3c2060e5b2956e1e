(** Proofs about MacroModel.v. *)
From Coquelicot Require Import Coquelicot.
From Coq Require Import String Reals ZArith Arith Bool Lia Lra List.
From Verif Require Import Base.
From Verif Require ReferencesModel.
From Verif Require Import ReferencesSpec ReferencesGeometry GeometryModel GeometryProofs PropertiesGeometry.
From Verif Require Import FunctionsModel FunctionsSpec FunctionsProofs FunctionsArith FunctionsSubs PropertiesFunctions.
From Verif Require Import FunctionalsModel FunctionalsSpec PiecewiseModel PiecewiseProofs PropertiesPiecewise MacroModel MacroSpec.
Import ListNotations.
Local Open Scope R_scope.

(** * Piecewise functions on given cells *)

Definition clean (f : func) : Prop := wf (PFun f) /\ Forall no_dummy (components f).
Definition on_cells (n : nat) (cells : list (list pt)) (fs : list func) : piecewise :=
  {| pw_pieces := combine cells fs; pw_tdim := n |}.
Definition same_kinds (fs : list func) : Prop := forall f g, In f fs -> In g fs -> same_kind f g = true.

Lemma map_fst_combine {A B} (l : list A) (r : list B) : length l = length r -> map fst (combine l r) = l.
Proof. revert r. induction l as [|a l IH]; intros [|b r] H; simpl in *; try discriminate; [reflexivity|]. f_equal. apply IH. congruence. Qed.
Lemma map_snd_combine {A B} (l : list A) (r : list B) : length l = length r -> map snd (combine l r) = r.
Proof. revert r. induction l as [|a l IH]; intros [|b r] H; simpl in *; try discriminate; [reflexivity|]. f_equal. apply IH. congruence. Qed.

Lemma make_pw_cells n cells vs fs : cells <> [] -> NoDup cells -> length vs = length cells ->
  Forall2 (fun v f => parse_function_input v = Ok f) vs fs -> same_kinds fs ->
  make_pw (combine cells vs) n = Ok (on_cells n cells fs).
Proof.
  intros Hne Hn L F K. rewrite (make_pw_success (combine cells vs) fs n).
  - rewrite map_fst_combine by congruence. reflexivity.
  - destruct cells; [congruence|]. destruct vs; [discriminate|]. simpl. discriminate.
  - rewrite map_fst_combine by congruence. exact Hn.
  - clear - F L. revert vs fs L F. induction cells as [|c cells IH]; intros [|v vs] fs L F; try discriminate; simpl.
    + inversion F. constructor.
    + inversion F as [|? f ? fs' E F']; subst. constructor; [exact E|]. apply IH; [simpl in L; congruence|exact F'].
  - exact K.
Qed.

Lemma make_pw_funs n cells fs : cells <> [] -> NoDup cells -> length fs = length cells -> same_kinds fs ->
  make_pw (combine cells (map PFun fs)) n = Ok (on_cells n cells fs).
Proof.
  intros Hne Hn L K. apply make_pw_cells; auto; [rewrite map_length; exact L|].
  clear. induction fs; constructor; auto.
Qed.

Lemma on_pieces_cells n cells fs gs g : cells <> [] -> NoDup cells -> length fs = length cells ->
  Forall2 (fun f h => g f = Ok h) fs gs -> same_kinds gs ->
  on_pieces g (on_cells n cells fs) = Ok (on_cells n cells gs).
Proof.
  intros Hne Hn L F K. unfold on_pieces, pw_map, on_cells at 1. cbn [pw_pieces pw_tdim].
  assert (LG : length gs = length fs) by (clear - F; induction F; simpl; congruence).
  assert (E : map_res (fun sf => rmap (pair (fst sf)) (rmap PFun (g (snd sf)))) (combine cells fs) = Ok (combine cells (map PFun gs))).
  { clear - F L. revert fs gs L F. induction cells as [|c cells IH]; intros [|f fs] gs L F; try discriminate; simpl; [reflexivity|].
    inversion F as [|? h ? gs' E F']; subst. simpl in *. rewrite E. simpl. rewrite (IH fs gs') by (auto; congruence). reflexivity. }
  rewrite E. cbn [rbind]. apply make_pw_funs; auto. congruence.
Qed.

(** * Evaluation *)

Definition agree (n : nat) (cells : list (list pt)) (fs : list func) : Prop :=
  forall c1 f1 c2 f2 p, length p = n -> In (c1, f1) (combine cells fs) -> In (c2, f2) (combine cells fs) ->
    in_hull c1 p -> in_hull c2 p -> forall q, value_at (assign x_symbols p q) f1 = value_at (assign x_symbols p q) f2.

Lemma constants_nums p : constants (map (fun c => PExpr (ENum c)) p) = Ok (Some (nums p)).
Proof. induction p as [|c p IH]; [reflexivity|]. simpl. rewrite IH. reflexivity. Qed.
Lemma number_nums p : map number (nums p) = p.
Proof. unfold nums. rewrite map_map. apply map_id. Qed.

Lemma first_exists (l : list (list pt * func)) n p : length p = n -> Forall (fun sf => regular n (fst sf)) l ->
  (exists sf, In sf l /\ in_hull (fst sf) p) -> exists f, first_at l p f.
Proof.
  intros Hp. induction l as [|[c f] l IH]; intros Hr [sf [Hin Hh]]; [destruct Hin|].
  inversion Hr as [|? ? Hc Hl]; subst. simpl in Hc.
  destruct (in_cell_decides (length p) p c eq_refl Hc) as [b [_ Hb]]. destruct b.
  - exists f. exists [], c, l. split; [reflexivity|]. split; [apply Hb; reflexivity|constructor].
  - assert (Hnc : ~ in_hull c p) by (intros H; apply Hb in H; discriminate).
    destruct Hin as [<-|Hin]; [contradiction|]. destruct (IH Hl) as [g [bf [c' [af [E [H1 H2]]]]]]; [exists sf; auto|].
    exists g. exists ((c, f) :: bf), c', af. rewrite E. split; [reflexivity|]. split; [exact H1|]. constructor; assumption.
Qed.

Lemma eval_cells n cells fs p c f : (1 <= n <= 3)%nat -> length p = n -> length fs = length cells ->
  Forall (regular n) cells -> Forall clean fs -> agree n cells fs -> In (c, f) (combine cells fs) -> in_hull c p ->
  (exists h, pw_subs false (on_cells n cells fs) (VarList x_symbols) (PSeq (map (fun c => PExpr (ENum c)) p)) = Ok (SFun h) /\
     forall q, value_at q h = value_at (assign x_symbols p q) f) /\
  exists k g, In (k, g) (combine cells fs) /\ in_hull k p /\ get_piece false (on_cells n cells fs) p = Ok g.
Proof.
  intros Hn Hp L Hr Hc Ha Hin Hh.
  assert (HR : Forall (fun sf => regular n (fst sf)) (combine cells fs)).
  { apply Forall_forall. intros [k g] Hk. apply in_combine_l in Hk. rewrite Forall_forall in Hr. apply Hr. exact Hk. }
  destruct (first_exists _ n p Hp HR (ex_intro _ (c, f) (conj Hin Hh))) as [g Hg].
  assert (Hgin : exists k, In (k, g) (combine cells fs) /\ in_hull k p).
  { destruct Hg as [bf [k [af [E [H1 _]]]]]. exists k. rewrite E. split; [apply in_or_app; right; left; reflexivity|exact H1]. }
  destruct Hgin as [k [Hk Hkp]].
  destruct (C45_evaluation_partial (on_cells n cells fs) n (map (fun c => PExpr (ENum c)) p) (nums p) eq_refl Hn HR) as [H1 _].
  - apply Forall_forall. intros [k' g'] Hk'. apply in_combine_r in Hk'. rewrite Forall_forall in Hc. apply Hc. exact Hk'.
  - rewrite map_length. exact Hp.
  - apply constants_nums.
  - rewrite number_nums in H1. destruct (H1 g Hg) as [h [E V]]. split.
    + exists h. split; [exact E|]. intros q. rewrite V. apply (Ha k g c f); assumption.
    + exists k, g. split; [exact Hk|]. split; [exact Hkp|].
      apply (proj1 (get_piece_spec n (on_cells n cells fs) p eq_refl Hn Hp HR)). exact Hg.
Qed.

(** The values of the pieces do not depend on other symbols than x, y, z that have values at points. *)
Definition only_x (n : nat) (f : func) : Prop :=
  forall p q q', length p = n -> value_at (assign x_symbols p q) f = value_at (assign x_symbols p q') f.

Lemma fits_cells n cells fs domain : (1 <= n <= 3)%nat -> length fs = length cells ->
  Forall (regular n) cells -> Forall clean fs -> Forall (only_x n) fs -> agree n cells fs ->
  (forall p, length p = n -> in_hull domain p -> exists c, In c cells /\ in_hull c p) ->
  fits n domain (on_cells n cells fs).
Proof.
  intros Hn L Hr Hc Ho Ha Hd p Hp Hin. destruct (Hd p Hp Hin) as [c [Hcc Hcp]].
  destruct (In_nth cells c [] Hcc) as [i [Hi Ei]].
  assert (Hcf : In (c, nth i fs (FS (ENum 0))) (combine cells fs)).
  { rewrite <- Ei at 1. rewrite <- (combine_nth cells fs i [] (FS (ENum 0))) by congruence. apply nth_In. rewrite combine_length, L, Nat.min_id. exact Hi. }
  set (f := nth i fs (FS (ENum 0))) in *.
  destruct (eval_cells n cells fs p c f Hn Hp L Hr Hc Ha Hcf Hcp) as [[h [E V]] _].
  rewrite Forall_forall in Ho.
  exists (value_at (assign x_symbols p (fun _ => 0)) f). split.
  - exists h. split; [exact E|]. intros q. rewrite V. apply (Ho f); [apply in_combine_r in Hcf; exact Hcf|exact Hp].
  - intros c' f' Hin' Hc' q. cbn [pw_pieces on_cells] in Hin'. rewrite (Ha c' f' c f p Hp Hin' Hcf Hc' Hcp q).
    apply (Ho f); [apply in_combine_r in Hcf; exact Hcf|exact Hp].
Qed.

(** * Triangles in the plane *)

Lemma hull3 a0 a1 b0 b1 c0 c1 x y : in_hull [[a0; a1]; [b0; b1]; [c0; c1]] [x; y] <->
  exists u v w, 0 <= u /\ 0 <= v /\ 0 <= w /\ u + v + w = 1 /\ x = u * a0 + v * b0 + w * c0 /\ y = u * a1 + v * b1 + w * c1.
Proof.
  split.
  - intros [l [[L [S C]] F]]. destruct l as [|u [|v [|w [|]]]]; try discriminate. exists u, v, w.
    pose proof (C 0%nat ltac:(simpl; lia)) as C0. pose proof (C 1%nat ltac:(simpl; lia)) as C1. unfold sumR in *. simpl in *.
    inversion_clear F as [|? ? F0 F']. inversion_clear F' as [|? ? F1 F2]. inversion_clear F2 as [|? ? F3 _]. repeat split; lra.
  - intros [u [v [w [U [V [W [S [X Y]]]]]]]]. exists [u; v; w]. split; [split; [reflexivity|split; [unfold sumR; simpl; lra|]]|apply Forall_cons; [exact U|apply Forall_cons; [exact V|apply Forall_cons; [exact W|constructor]]]].
    intros [|[|j]] Hj; simpl in Hj; try lia; unfold sumR; simpl; lra.
Qed.

Lemma two {p : list R} : length p = 2%nat -> exists x y, p = [x; y].
Proof. destruct p as [|x [|y [|]]]; try discriminate. intros _. exists x, y. reflexivity. Qed.

Definition corners : list pt := [[0; 0]; [1; 0]; [0; 1]].
Definition macro : list (list pt) :=
  [[[0; 0]; [1; 0]; [1 / 3; 1 / 3]]; [[1; 0]; [0; 1]; [1 / 3; 1 / 3]]; [[0; 1]; [0; 0]; [1 / 3; 1 / 3]]].

Lemma sub_cells_default : sub_cells corners = macro.
Proof.
  unfold sub_cells, macro, centre, corners. cbn [nth ReferencesModel.zip_star combine map fst snd ReferencesModel.rsum fold_left length].
  replace ((0 + 0 + 1 + 0) / INR 3) with (1 / 3) by (simpl; lra). replace ((0 + 0 + 0 + 1) / INR 3) with (1 / 3) by (simpl; lra). reflexivity.
Qed.

Lemma macro_regular : Forall (regular 2) macro.
Proof.
  apply Forall_forall. intros c [<-|[<-|[<-|[]]]]; left; (split; [split; [reflexivity|]|unfold edge_det2, co; simpl; lra]);
    apply Forall_forall; intros v [<-|[<-|[<-|[]]]]; reflexivity.
Qed.

Lemma macro_nodup : NoDup macro.
Proof.
  unfold macro. repeat (apply NoDup_cons; [simpl; intros H; repeat (destruct H as [H|H]; [injection H; intros; lra|]); exact H|]). constructor.
Qed.

Lemma macro_hull0 x y : in_hull [[0; 0]; [1; 0]; [1 / 3; 1 / 3]] [x; y] <-> 0 <= y /\ y <= x /\ x + 2 * y <= 1.
Proof.
  rewrite hull3. split.
  - intros [u [v [w H]]]. lra.
  - intros H. exists (1 - x - 2 * y), (x - y), (3 * y). lra.
Qed.
Lemma macro_hull1 x y : in_hull [[1; 0]; [0; 1]; [1 / 3; 1 / 3]] [x; y] <-> x + y <= 1 /\ 1 <= x + 2 * y /\ 1 <= 2 * x + y.
Proof.
  rewrite hull3. split.
  - intros [u [v [w H]]]. lra.
  - intros H. exists (2 * x + y - 1), (x + 2 * y - 1), (3 * (1 - x - y)). lra.
Qed.
Lemma macro_hull2 x y : in_hull [[0; 1]; [0; 0]; [1 / 3; 1 / 3]] [x; y] <-> 0 <= x /\ x <= y /\ 2 * x + y <= 1.
Proof.
  rewrite hull3. split.
  - intros [u [v [w H]]]. lra.
  - intros H. exists (y - x), (1 - 2 * x - y), (3 * x). lra.
Qed.

Lemma macro_cover p : length p = 2%nat -> in_hull corners p -> exists c, In c macro /\ in_hull c p.
Proof.
  intros Hp. destruct (two Hp) as [x [y ->]]. unfold corners. rewrite hull3. intros [u [v [w H]]].
  destruct (Rle_dec y x) as [H1|H1].
  - destruct (Rle_dec (x + 2 * y) 1).
    + eexists. split; [left; reflexivity|]. apply macro_hull0. lra.
    + eexists. split; [right; left; reflexivity|]. apply macro_hull1. lra.
  - destruct (Rle_dec (2 * x + y) 1).
    + eexists. split; [right; right; left; reflexivity|]. apply macro_hull2. lra.
    + eexists. split; [right; left; reflexivity|]. apply macro_hull1. lra.
Qed.

(** Three pieces agree if they do on the three interior edges. *)
Lemma macro_agree f0 f1 f2 :
  (forall y q, value_at (assign x_symbols [1 - 2 * y; y] q) f0 = value_at (assign x_symbols [1 - 2 * y; y] q) f1) ->
  (forall x q, value_at (assign x_symbols [x; 1 - 2 * x] q) f1 = value_at (assign x_symbols [x; 1 - 2 * x] q) f2) ->
  (forall x q, value_at (assign x_symbols [x; x] q) f2 = value_at (assign x_symbols [x; x] q) f0) ->
  agree 2 macro [f0; f1; f2].
Proof.
  intros H0 H1 H2 c1 g1 c2 g2 p Hp I1 I2 C1 C2 q. destruct (two Hp) as [x [y ->]].
  assert (E0 : x = 1 - 2 * y -> value_at (assign x_symbols [x; y] q) f0 = value_at (assign x_symbols [x; y] q) f1) by (intros ->; apply H0).
  assert (E1 : y = 1 - 2 * x -> value_at (assign x_symbols [x; y] q) f1 = value_at (assign x_symbols [x; y] q) f2) by (intros ->; apply H1).
  assert (E2 : y = x -> value_at (assign x_symbols [x; y] q) f2 = value_at (assign x_symbols [x; y] q) f0) by (intros ->; apply H2).
  simpl in I1, I2.
  destruct I1 as [I1|[I1|[I1|[]]]]; injection I1 as <- <-; (destruct I2 as [I2|[I2|[I2|[]]]]; injection I2 as <- <-); try reflexivity;
    try apply macro_hull0 in C1; try apply macro_hull1 in C1; try apply macro_hull2 in C1;
    try apply macro_hull0 in C2; try apply macro_hull1 in C2; try apply macro_hull2 in C2;
    first [apply E0; lra|apply E1; lra|apply E2; lra|symmetry; first [apply E0; lra|apply E1; lra|apply E2; lra]].
Qed.

(** [fs] has the kind and the symbols that the lemmas above need, and agrees on the interior edges. *)
Definition good (fs : list func) : Prop :=
  length fs = 3%nat /\ same_kinds fs /\ Forall clean fs /\ Forall (only_x 2) fs /\ agree 2 macro fs.

Lemma good_fits fs : good fs -> fits 2 corners (on_cells 2 macro fs).
Proof.
  intros [L [K [C [O A]]]]. apply fits_cells; auto; [apply macro_regular|apply macro_cover].
Qed.

(** polynomials in x and y *)
Fixpoint xy (e : expr) : bool :=
  match e with
  | ENum _ => true
  | ESym s => String.eqb s "x" || String.eqb s "y"
  | EAdd a b | EMul a b => xy a && xy b
  | EPow a _ => xy a
  | _ => false
  end.
Definition xy_func (f : func) : bool := match f with FS e => xy e | FV v => forallb xy v | FM _ => false end.

Lemma xy_ev e p q q' : xy e = true -> length p = 2%nat -> ev (assign x_symbols p q) e = ev (assign x_symbols p q') e.
Proof.
  intros H Hp. destruct (two Hp) as [x [y ->]]. induction e; simpl in *; try discriminate; try reflexivity.
  - apply orb_prop in H. destruct H as [H|H]; apply String.eqb_eq in H; subst; reflexivity.
  - apply andb_prop in H. destruct H. rewrite IHe1, IHe2 by assumption. reflexivity.
  - apply andb_prop in H. destruct H. rewrite IHe1, IHe2 by assumption. reflexivity.
  - rewrite IHe by assumption. reflexivity.
Qed.
Lemma xy_only_x f : xy_func f = true -> only_x 2 f.
Proof.
  intros H p q q' Hp. destruct f as [e|v|m]; simpl in *; [|..|discriminate].
  - f_equal. apply xy_ev; assumption.
  - f_equal. apply map_ext_in. intros e He. rewrite forallb_forall in H. apply xy_ev; auto.
Qed.
Lemma xy_no_dummy e : xy e = true -> no_dummy e.
Proof.
  induction e; simpl; intros H i Hi; try discriminate; simpl in Hi; try contradiction.
  - apply orb_prop in H. destruct H as [H|H]; apply String.eqb_eq in H; subst; discriminate.
  - apply andb_prop in H. destruct H, Hi; [apply (IHe1 H i)|apply (IHe2 H0 i)]; assumption.
  - apply andb_prop in H. destruct H, Hi; [apply (IHe1 H i)|apply (IHe2 H0 i)]; assumption.
  - apply (IHe H i). assumption.
Qed.
Lemma xy_clean f : xy_func f = true -> clean f.
Proof.
  intros H. destruct f as [e|v|m]; simpl in *; [| |discriminate]; (split; [exact I|]); simpl.
  - constructor; [apply xy_no_dummy; exact H|constructor].
  - apply Forall_forall. intros e He. rewrite forallb_forall in H. apply xy_no_dummy. auto.
Qed.

Definition kinds_same (fs : list func) : bool := forallb (fun f => forallb (same_kind f) fs) fs.
Lemma good_intro f0 f1 f2 : forallb xy_func [f0; f1; f2] = true -> kinds_same [f0; f1; f2] = true ->
  (forall y q, value_at (assign x_symbols [1 - 2 * y; y] q) f0 = value_at (assign x_symbols [1 - 2 * y; y] q) f1) ->
  (forall x q, value_at (assign x_symbols [x; 1 - 2 * x] q) f1 = value_at (assign x_symbols [x; 1 - 2 * x] q) f2) ->
  (forall x q, value_at (assign x_symbols [x; x] q) f2 = value_at (assign x_symbols [x; x] q) f0) ->
  good [f0; f1; f2].
Proof.
  intros H K H0 H1 H2. rewrite forallb_forall in H. split; [reflexivity|]. split; [|split; [|split]].
  - intros f g Hf Hg. unfold kinds_same in K. rewrite forallb_forall in K. specialize (K f Hf). rewrite forallb_forall in K. auto.
  - apply Forall_forall. intros f Hf. apply xy_clean. auto.
  - apply Forall_forall. intros f Hf. apply xy_only_x. auto.
  - apply macro_agree; assumption.
Qed.

Lemma macro_polys_good pl : Forall good pl -> macro_polys macro pl = Ok (map (on_cells 2 macro) pl).
Proof.
  unfold macro_polys. induction 1 as [|fs pl [L [K _]] _ IH]; [reflexivity|]. cbn [ReferencesModel.map_r map].
  rewrite make_pw_funs; [|discriminate|apply macro_nodup|exact L|exact K]. cbn [rbind]. rewrite IH. reflexivity.
Qed.

Ltac solve_good :=
  apply good_intro; [reflexivity|reflexivity|..]; intros; cbn [value_at map];
  (first [apply (f_equal VS) | apply (f_equal VV); apply (f_equal2 cons); [|apply (f_equal2 cons); [|reflexivity]]]);
  unfold assign, x_symbols, FunctionsSpec.upd, esub, eneg; cbn -[IZR]; ring.

Lemma hct_good : Forall good hct_pieces.
Proof. unfold hct_pieces, same. cbn [map app]. repeat (apply Forall_cons; [solve_good|]). constructor. Qed.
Lemma rhct_good : Forall good rhct_pieces.
Proof. unfold rhct_pieces, same. cbn [map app]. repeat (apply Forall_cons; [solve_good|]). constructor. Qed.
Lemma as_good : Forall good as_pieces.
Proof. unfold as_pieces, same. cbn [map app]. repeat (apply Forall_cons; [solve_good|]). constructor. Qed.

Definition got (r : res func) : func := match r with Ok f => f | Err _ => FS (ENum 0) end.
Definition succeeds (r : res func) : bool := match r with Ok _ => true | Err _ => false end.

Lemma derived g fs : good (map (fun f => got (g f)) fs) -> forallb (fun f => succeeds (g f)) fs = true ->
  on_pieces g (on_cells 2 macro fs) = Ok (on_cells 2 macro (map (fun f => got (g f)) fs)).
Proof.
  intros [L [K _]] H. apply on_pieces_cells; [discriminate|apply macro_nodup|rewrite map_length in L; exact L| |exact K].
  clear - H. induction fs as [|f fs IH]; simpl in *; [constructor|]. apply andb_prop in H. destruct H as [H1 H2].
  constructor; [|apply IH; exact H2]. destruct (g f); [reflexivity|discriminate].
Qed.

(** the derivatives of all pieces fit together as well *)
Definition good_after (g : func -> res func) (fs : list func) : Prop :=
  good (map (fun f => got (g f)) fs) /\ forallb (fun f => succeeds (g f)) fs = true.

Ltac solve_after :=
  split; [|reflexivity]; cbn [map got f_grad f_div f_diff rmap rbind map_res range seq x_at opt_res nth_error x_symbols]; solve_good.

Lemma hct_gradients : Forall (good_after (fun f => f_grad f 2)) hct_pieces.
Proof. unfold hct_pieces, same. cbn [map app]. repeat (apply Forall_cons; [solve_after|]). constructor. Qed.
Lemma rhct_gradients : Forall (good_after (fun f => f_grad f 2)) rhct_pieces.
Proof. unfold rhct_pieces, same. cbn [map app]. repeat (apply Forall_cons; [solve_after|]). constructor. Qed.
Lemma as_divergences : Forall (good_after f_div) as_pieces.
Proof. unfold as_pieces, same. cbn [map app]. repeat (apply Forall_cons; [solve_after|]). constructor. Qed.
