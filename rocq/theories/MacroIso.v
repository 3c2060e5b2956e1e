(** P1-iso-P2 elements and P1 macro on cells that are affine images of the default ones. *)
From Coquelicot Require Import Coquelicot.
From Coq Require Import String Reals ZArith Arith Bool Lia Lra List.
From Verif Require Import Base.
From Verif Require ReferencesModel.
From Verif Require Import ReferencesSpec ReferencesGeometry GeometryModel GeometryProofs PropertiesGeometry.
From Verif Require Import FunctionsModel FunctionsSpec FunctionsProofs FunctionsArith FunctionsSubs PropertiesFunctions.
From Verif Require Import FunctionalsModel FunctionalsSpec PiecewiseModel PiecewiseProofs PropertiesPiecewise MacroModel MacroSpec MacroProofs MacroUnisolvence.
Import ListNotations.
Local Open Scope R_scope.

(** * Point evaluation on given cells *)

Definition fitting (n : nat) (cells : list (list pt)) (fs : list func) : Prop :=
  length fs = length cells /\ Forall clean fs /\ Forall (only_x n) fs /\ agree n cells fs.

Lemma evaluates_cell n cells fs k p v : (1 <= n <= 3)%nat -> Forall (regular n) cells -> fitting n cells fs -> length p = n -> (k < length cells)%nat ->
  in_hull (nth k cells []) p -> value_at (assign x_symbols p origin_env) (nth k fs (FS (ENum 0))) = VS v ->
  evaluates_pw (PointEvaluation (nums p)) (on_cells n cells fs) v.
Proof.
  intros Hn Hr [L [C [O A]]] Hp Hk Hin Hv.
  assert (I : In (nth k cells [], nth k fs (FS (ENum 0))) (combine cells fs)).
  { rewrite <- (combine_nth cells fs k [] (FS (ENum 0))) by (symmetry; exact L). apply nth_In. rewrite combine_length, L. lia. }
  destruct (eval_cells n cells fs p _ _ Hn Hp L Hr C A I Hin) as [[h [E V]] _].
  assert (W : forall q, value_at q h = VS v).
  { intros q. rewrite V, <- Hv. rewrite Forall_forall in O. apply O; [apply nth_In; lia|exact Hp]. }
  destruct (value_scalar _ _ W) as [e [-> He]].
  unfold evaluates_pw, eval_pw. rewrite at_nums, E. cbn [rmap rbind]. exact He.
Qed.

Lemma hull4 a0 a1 b0 b1 c0 c1 d0 d1 x y : in_hull [[a0; a1]; [b0; b1]; [c0; c1]; [d0; d1]] [x; y] <->
  exists u v w z, 0 <= u /\ 0 <= v /\ 0 <= w /\ 0 <= z /\ u + v + w + z = 1 /\ x = u * a0 + v * b0 + w * c0 + z * d0 /\ y = u * a1 + v * b1 + w * c1 + z * d1.
Proof.
  split.
  - intros [l [[L [S C]] F]]. destruct l as [|u [|v [|w [|z [|]]]]]; try discriminate. exists u, v, w, z.
    pose proof (C 0%nat ltac:(simpl; lia)) as C0. pose proof (C 1%nat ltac:(simpl; lia)) as C1. unfold sumR in *. simpl in *.
    inversion_clear F as [|? ? F0 F']. inversion_clear F' as [|? ? F1 F2]. inversion_clear F2 as [|? ? F3 F4]. inversion_clear F4 as [|? ? F5 _]. repeat split; lra.
  - intros [u [v [w [z [U [V [W [Z [S [X Y]]]]]]]]]]. exists [u; v; w; z].
    split; [split; [reflexivity|split; [unfold sumR; simpl; lra|]]|apply Forall_cons; [exact U|apply Forall_cons; [exact V|apply Forall_cons; [exact W|apply Forall_cons; [exact Z|constructor]]]]].
    intros [|[|j]] Hj; simpl in Hj; try lia; unfold sumR; simpl; lra.
Qed.

Ltac solve_parse := repeat (apply Forall2_cons; [reflexivity|]); apply Forall2_nil.

(** * Affine images of plane cells *)

Section Plane.
Variables a0 a1 b0 b1 c0 c1 : R.
Let D := (b0 - a0) * (c1 - a1) - (c0 - a0) * (b1 - a1).
Hypothesis HD : D <> 0.

(** the image of the point (X, Y), as get_point computes it *)
Definition image (q : list R) : list R :=
  [a0 + (b0 - a0) * nth 0 q 0 + (c0 - a0) * nth 1 q 0; a1 + (b1 - a1) * nth 0 q 0 + (c1 - a1) * nth 1 q 0].
Definition iX (x y : R) : R := (c1 - a1) / D * (x - a0) + - (c0 - a0) / D * (y - a1).
Definition iY (x y : R) : R := - (b1 - a1) / D * (x - a0) + (b0 - a0) / D * (y - a1).
Definition eX : expr := edot [(c1 - a1) / D; - (c0 - a0) / D] (difference [a0; a1]).
Definition eY : expr := edot [- (b1 - a1) / D; (b0 - a0) / D] (difference [a0; a1]).

Lemma ev_X x y q : ev (assign x_symbols [x; y] q) eX = iX x y.
Proof. unfold eX, iX, edot, difference, esub, eneg, assign, x_symbols, FunctionsSpec.upd. cbn. ring. Qed.
Lemma ev_Y x y q : ev (assign x_symbols [x; y] q) eY = iY x y.
Proof. unfold eY, iY, edot, difference, esub, eneg, assign, x_symbols, FunctionsSpec.upd. cbn. ring. Qed.
Lemma xy_X : xy eX = true. Proof. reflexivity. Qed.
Lemma xy_Y : xy eY = true. Proof. reflexivity. Qed.

Lemma image_inverse x y : image [iX x y; iY x y] = [x; y].
Proof. unfold image, iX, iY. cbn [nth]. apply (f_equal2 cons); [|apply (f_equal2 cons); [|reflexivity]]; unfold D in *; field; exact HD. Qed.
Lemma inverse_image X Y : iX (nth 0 (image [X; Y]) 0) (nth 1 (image [X; Y]) 0) = X /\ iY (nth 0 (image [X; Y]) 0) (nth 1 (image [X; Y]) 0) = Y.
Proof. unfold image, iX, iY. cbn [nth]. unfold D in *. split; field; exact HD. Qed.
Lemma image_injective X Y X' Y' : image [X; Y] = image [X'; Y'] -> X = X' /\ Y = Y'.
Proof.
  intros E. destruct (inverse_image X Y) as [A B]. destruct (inverse_image X' Y') as [A' B']. rewrite E in A, B. split; congruence.
Qed.

Lemma image_hull3 p0 p1 q0 q1 s0 s1 x y :
  in_hull (map image [[p0; p1]; [q0; q1]; [s0; s1]]) [x; y] <-> in_hull [[p0; p1]; [q0; q1]; [s0; s1]] [iX x y; iY x y].
Proof.
  cbn [map]. unfold image. cbn [nth]. rewrite !hull3. split; intros [u [v [w [U [V [W [S [X Y]]]]]]]]; exists u, v, w; repeat (split; [assumption|]).
  - rewrite X, Y. replace w with (1 - u - v) by lra. unfold iX, iY, D in *. split; field; exact HD.
  - pose proof (image_inverse x y) as E. unfold image in E. cbn [nth] in E. injection E as Ex Ey. rewrite X, Y in Ex, Ey.
    rewrite <- Ex, <- Ey. replace w with (1 - u - v) by lra. split; ring.
Qed.
Lemma image_hull4 p0 p1 q0 q1 s0 s1 t0 t1 x y :
  in_hull (map image [[p0; p1]; [q0; q1]; [s0; s1]; [t0; t1]]) [x; y] <-> in_hull [[p0; p1]; [q0; q1]; [s0; s1]; [t0; t1]] [iX x y; iY x y].
Proof.
  cbn [map]. unfold image. cbn [nth]. rewrite !hull4. split; intros [u [v [w [z [U [V [W [Z [S [X Y]]]]]]]]]]; exists u, v, w, z; repeat (split; [assumption|]).
  - rewrite X, Y. replace z with (1 - u - v - w) by lra. unfold iX, iY, D in *. split; field; exact HD.
  - pose proof (image_inverse x y) as E. unfold image in E. cbn [nth] in E. injection E as Ex Ey. rewrite X, Y in Ex, Ey.
    rewrite <- Ex, <- Ey. replace z with (1 - u - v - w) by lra. split; ring.
Qed.

Lemma image_regular3 p0 p1 q0 q1 s0 s1 : (q0 - p0) * (s1 - p1) - (q1 - p1) * (s0 - p0) <> 0 ->
  regular 2 (map image [[p0; p1]; [q0; q1]; [s0; s1]]).
Proof.
  intros H. left. split; [split; [reflexivity|]; apply Forall_forall; intros v [<-|[<-|[<-|[]]]]; reflexivity|].
  unfold edge_det2, co, image. cbn [map nth]. intros E. apply (Rmult_integral_contrapositive_currified _ _ HD H). unfold D. rewrite <- E. ring.
Qed.
Lemma image_regular4 x0 x1 y0 y1 : 0 < D -> x0 < x1 -> y0 < y1 -> regular 2 (map image [[x0; y0]; [x1; y0]; [x0; y1]; [x1; y1]]).
Proof.
  intros HP Hx Hy. right. split; [split; [reflexivity|]; apply Forall_forall; intros v [<-|[<-|[<-|[<-|[]]]]]; reflexivity|].
  assert (P : 0 < D * ((x1 - x0) * (y1 - y0))) by (apply Rmult_lt_0_compat; [exact HP|apply Rmult_lt_0_compat; lra]).
  unfold convex_quad, orient2, image. cbn [map nth]. unfold D in P.
  repeat split; (eapply Rlt_le_trans; [exact P|apply Req_le; ring]).
Qed.

(** The cells of the four elements. *)
Definition halves : list (list pt) :=
  [[[0; 0]; [1 / 2; 0]; [0; 1 / 2]]; [[1; 0]; [1 / 2; 1 / 2]; [1 / 2; 0]]; [[0; 1]; [0; 1 / 2]; [1 / 2; 1 / 2]]; [[0; 1 / 2]; [1 / 2; 1 / 2]; [1 / 2; 0]]].
Definition quarters : list (list pt) :=
  [[[0; 0]; [1 / 2; 0]; [0; 1 / 2]; [1 / 2; 1 / 2]]; [[1 / 2; 0]; [1; 0]; [1 / 2; 1 / 2]; [1; 1 / 2]];
   [[0; 1 / 2]; [1 / 2; 1 / 2]; [0; 1]; [1 / 2; 1]]; [[1 / 2; 1 / 2]; [1; 1 / 2]; [1 / 2; 1]; [1; 1]]].

Lemma half0 x y : in_hull [[0; 0]; [1 / 2; 0]; [0; 1 / 2]] [x; y] <-> 0 <= x /\ 0 <= y /\ x + y <= 1 / 2.
Proof. rewrite hull3. split; [intros [u [v [w H]]]; lra|intros H; exists (1 - 2 * x - 2 * y), (2 * x), (2 * y); lra]. Qed.
Lemma half1 x y : in_hull [[1; 0]; [1 / 2; 1 / 2]; [1 / 2; 0]] [x; y] <-> 1 / 2 <= x /\ 0 <= y /\ x + y <= 1.
Proof. rewrite hull3. split; [intros [u [v [w H]]]; lra|intros H; exists (2 * x - 1), (2 * y), (2 - 2 * x - 2 * y); lra]. Qed.
Lemma half2 x y : in_hull [[0; 1]; [0; 1 / 2]; [1 / 2; 1 / 2]] [x; y] <-> 0 <= x /\ 1 / 2 <= y /\ x + y <= 1.
Proof. rewrite hull3. split; [intros [u [v [w H]]]; lra|intros H; exists (2 * y - 1), (2 - 2 * x - 2 * y), (2 * x); lra]. Qed.
Lemma half3 x y : in_hull [[0; 1 / 2]; [1 / 2; 1 / 2]; [1 / 2; 0]] [x; y] <-> x <= 1 / 2 /\ y <= 1 / 2 /\ 1 / 2 <= x + y.
Proof. rewrite hull3. split; [intros [u [v [w H]]]; lra|intros H; exists (1 - 2 * x), (2 * x + 2 * y - 1), (1 - 2 * y); lra]. Qed.
Lemma quarter x0 x1 y0 y1 x y : x0 < x1 -> y0 < y1 -> in_hull [[x0; y0]; [x1; y0]; [x0; y1]; [x1; y1]] [x; y] <-> x0 <= x <= x1 /\ y0 <= y <= y1.
Proof.
  intros Hx Hy. rewrite hull4. split.
  - intros [u [v [w [z [U [V [W [Z [S [-> ->]]]]]]]]]]. replace u with (1 - v - w - z) in * by lra.
    assert (0 <= (v + z) * (x1 - x0)) by (apply Rmult_le_pos; lra). assert (0 <= (1 - v - w - z + w) * (x1 - x0)) by (apply Rmult_le_pos; lra).
    assert (0 <= (w + z) * (y1 - y0)) by (apply Rmult_le_pos; lra). assert (0 <= (1 - v - w - z + v) * (y1 - y0)) by (apply Rmult_le_pos; lra).
    repeat split; lra.
  - intros [[X0 X1] [Y0 Y1]]. set (s := (x - x0) / (x1 - x0)). set (t := (y - y0) / (y1 - y0)).
    assert (S0 : 0 <= s) by (apply Rmult_le_pos; [lra|apply Rlt_le, Rinv_0_lt_compat; lra]).
    assert (T0 : 0 <= t) by (apply Rmult_le_pos; [lra|apply Rlt_le, Rinv_0_lt_compat; lra]).
    assert (Ex : x = x0 + s * (x1 - x0)) by (unfold s; field; lra). assert (Ey : y = y0 + t * (y1 - y0)) by (unfold t; field; lra).
    assert (S1 : s <= 1) by (apply (Rmult_le_reg_r (x1 - x0)); lra). assert (T1 : t <= 1) by (apply (Rmult_le_reg_r (y1 - y0)); lra).
    exists ((1 - s) * (1 - t)), (s * (1 - t)), ((1 - s) * t), (s * t).
    repeat (split; [apply Rmult_le_pos; lra|]). split; [ring|]. rewrite Ex, Ey. split; ring.
Qed.

Lemma halves_regular : Forall (regular 2) (map (map image) halves).
Proof. unfold halves. cbn [map]. repeat (apply Forall_cons; [apply image_regular3; lra|]). constructor. Qed.
Lemma quarters_regular : 0 < D -> Forall (regular 2) (map (map image) quarters).
Proof. intros P. unfold quarters. cbn [map]. repeat (apply Forall_cons; [apply image_regular4; (exact P || lra)|]). constructor. Qed.
Lemma macro_image_regular : Forall (regular 2) (map (map image) macro).
Proof. unfold macro. cbn [map]. repeat (apply Forall_cons; [apply image_regular3; lra|]). constructor. Qed.

Definition plane_point (q : list R) : Prop := exists x y, q = [x; y].
Lemma images_nodup cells : Forall (Forall plane_point) cells -> NoDup cells -> NoDup (map (map image) cells).
Proof.
  intros F N. induction N as [|c cells H N IH]; [constructor|]. inversion_clear F as [|? ? Fc Fl]. cbn [map]. constructor; [|apply IH; exact Fl].
  intros I. apply in_map_iff in I. destruct I as [c' [E I]]. apply H. replace c with c'; [exact I|].
  rewrite Forall_forall in Fl. specialize (Fl c' I). clear - E Fc Fl HD. revert c' E Fl. induction c as [|p c IHc]; intros [|p' c'] E Fl; try discriminate; [reflexivity|].
  cbn [map] in E. inversion Fc as [|? ? [x [y ?]] Fc']. inversion Fl as [|? ? [x' [y' ?]] Fl']. subst.
  assert (E1 : image [x'; y'] = image [x; y]) by (exact (f_equal (fun l => nth 0 l []) E)). assert (E2 : map image c' = map image c) by (exact (f_equal (@tl _) E)).
  destruct (image_injective _ _ _ _ E1) as [-> ->]. f_equal. apply IHc; assumption.
Qed.

Lemma halves_nodup : NoDup (map (map image) halves).
Proof.
  apply images_nodup.
  - unfold halves. repeat (apply Forall_cons; [repeat (apply Forall_cons; [eexists _, _; reflexivity|]); constructor|]). constructor.
  - unfold halves. repeat (apply NoDup_cons; [simpl; intros H; repeat (destruct H as [H|H]; [injection H; intros; lra|]); exact H|]). constructor.
Qed.
Lemma quarters_nodup : NoDup (map (map image) quarters).
Proof.
  apply images_nodup.
  - unfold quarters. repeat (apply Forall_cons; [repeat (apply Forall_cons; [eexists _, _; reflexivity|]); constructor|]). constructor.
  - unfold quarters. repeat (apply NoDup_cons; [simpl; intros H; repeat (destruct H as [H|H]; [injection H; intros; lra|]); exact H|]). constructor.
Qed.
Lemma macro_image_nodup : NoDup (map (map image) macro).
Proof.
  apply images_nodup; [|apply macro_nodup].
  unfold macro. repeat (apply Forall_cons; [repeat (apply Forall_cons; [eexists _, _; reflexivity|]); constructor|]). constructor.
Qed.

(** Constructors on these cells. *)
Lemma pieces_good cells pieces vs fs : cells <> [] -> NoDup cells -> length vs = length cells ->
  map (fun iq => (snd iq, match find (fun ie => Nat.eqb (fst ie) (fst iq)) pieces with
                          | Some ie => PExpr (snd ie)
                          | None => PInt 0
                          end)) (numbered cells) = combine cells vs ->
  Forall2 (fun v f => parse_function_input v = Ok f) vs fs -> same_kinds fs ->
  pieces_on cells 2 pieces = Ok (on_cells 2 cells fs).
Proof. intros H1 H2 H3 H4 H5 H6. unfold pieces_on. rewrite H4. apply make_pw_cells; assumption. Qed.

Local Notation x := eX.
Local Notation y := eY.
Let c : expr := (#1 - x - y)%py.
(** the pieces of the six functions on a triangle *)
Definition iso_triangle_pieces : list (list func) :=
  map (map FS) [[#2 * c - #1; #0; #0; #0];
     [#0; #2 * x - #1; #0; #0];
     [#0; #0; #2 * y - #1; #0];
     [#2 * x; #2 * c; #0; #1 - #2 * y];
     [#2 * y; #0; #2 * c; #1 - #2 * x];
     [#0; #2 * y; #2 * x; #1 - #2 * c]]%py.
Definition iso_quadrilateral_pieces : list (list func) :=
  map (map FS) [[(#1 - #2 * x) * (#1 - #2 * y); #0; #0; #0];
     [#0; (#2 * x - #1) * (#1 - #2 * y); #0; #0];
     [#0; #0; (#1 - #2 * x) * (#2 * y - #1); #0];
     [#0; #0; #0; (#2 * x - #1) * (#2 * y - #1)];
     [#2 * x * (#1 - #2 * y); #2 * (#1 - x) * (#1 - #2 * y); #0; #0];
     [#2 * (#1 - #2 * x) * y; #0; #2 * (#1 - #2 * x) * (#1 - y); #0];
     [#0; #2 * (#2 * x - #1) * y; #0; #2 * (#2 * x - #1) * (#1 - y)];
     [#0; #0; #2 * x * (#2 * y - #1); #2 * (#1 - x) * (#2 * y - #1)];
     [#4 * x * y; #4 * (#1 - x) * y; #4 * x * (#1 - y); #4 * (#1 - x) * (#1 - y)]]%py.
Definition p1_macro_pieces : list (list func) :=
  map (map FS) [[#1; #1; #1]; [ESym "x"%string; ESym "x"%string; ESym "x"%string]; [ESym "y"%string; ESym "y"%string; ESym "y"%string];
     [#3 * y; #3 * (#1 - x - y); #3 * x]]%py.

Lemma scalar_kinds es : same_kinds (map FS es).
Proof. intros f g Hf Hg. apply in_map_iff in Hf, Hg. destruct Hf as [e [<- _]], Hg as [e' [<- _]]. reflexivity. Qed.
Lemma xy_fitting es cells : length es = length cells -> forallb xy es = true -> agree 2 cells (map FS es) -> fitting 2 cells (map FS es).
Proof.
  intros L H A. rewrite forallb_forall in H. split; [rewrite map_length; exact L|]. split; [|split; [|exact A]].
  - apply Forall_forall. intros f Hf. apply in_map_iff in Hf. destruct Hf as [e [<- He]]. apply xy_clean. simpl. apply H, He.
  - apply Forall_forall. intros f Hf. apply in_map_iff in Hf. destruct Hf as [e [<- He]]. apply xy_only_x. simpl. apply H, He.
Qed.

Ltac simplify_values := cbn [value_at]; apply (f_equal VS); unfold c, esub, eneg; cbn [ev]; rewrite ?ev_X, ?ev_Y.
Ltac cases4 H := destruct H as [H|[H|[H|[H|[]]]]]; injection H as <- <-.

Lemma iso_triangle_fitting : Forall (fitting 2 (map (map image) halves)) iso_triangle_pieces.
Proof.
  unfold iso_triangle_pieces. cbn [map].
  repeat (apply Forall_cons; [change (fun f => FS f) with FS; match goal with |- fitting _ _ [FS ?a; FS ?b; FS ?d; FS ?e] => apply (xy_fitting [a; b; d; e]) end; [reflexivity|reflexivity|]|]); [..|constructor].
  all: intros k1 f1 k2 f2 p Hp I1 I2 C1 C2 q; destruct (two Hp) as [px [py ->]]; unfold halves in I1, I2; cbn [map combine In] in I1, I2.
  all: cases4 I1; cases4 I2; try reflexivity.
  all: unfold halves in C1, C2; apply image_hull3 in C1, C2.
  all: try apply half0 in C1; try apply half1 in C1; try apply half2 in C1; try apply half3 in C1.
  all: try apply half0 in C2; try apply half1 in C2; try apply half2 in C2; try apply half3 in C2.
  all: simplify_values; generalize dependent (iX px py); generalize dependent (iY px py); intros; lra.
Qed.

Lemma iso_quadrilateral_fitting : Forall (fitting 2 (map (map image) quarters)) iso_quadrilateral_pieces.
Proof.
  unfold iso_quadrilateral_pieces. cbn [map].
  repeat (apply Forall_cons; [match goal with |- fitting _ _ [FS ?a; FS ?b; FS ?d; FS ?e] => apply (xy_fitting [a; b; d; e]) end; [reflexivity|reflexivity|]|]); [..|constructor].
  all: intros k1 f1 k2 f2 p Hp I1 I2 C1 C2 q; destruct (two Hp) as [px [py ->]]; unfold quarters in I1, I2; cbn [map combine In] in I1, I2.
  all: cases4 I1; cases4 I2; try reflexivity.
  all: apply image_hull4, quarter in C1; [|lra|lra]; apply image_hull4, quarter in C2; [|lra|lra].
  all: simplify_values; generalize dependent (iX px py); generalize dependent (iY px py); intros V U; intros.
  all: first [assert (EU : U = 1 / 2) by lra; assert (EV : V = 1 / 2) by lra; rewrite EU, EV; lra
             |assert (EU : U = 1 / 2) by lra; rewrite EU; lra
             |assert (EV : V = 1 / 2) by lra; rewrite EV; lra].
Qed.

Lemma p1_macro_fitting : Forall (fitting 2 (map (map image) macro)) p1_macro_pieces.
Proof.
  unfold p1_macro_pieces. cbn [map].
  repeat (apply Forall_cons; [match goal with |- fitting _ _ [FS ?a; FS ?b; FS ?d] => apply (xy_fitting [a; b; d]) end; [reflexivity|reflexivity|]|]); [..|constructor].
  all: intros k1 f1 k2 f2 p Hp I1 I2 C1 C2 q; destruct (two Hp) as [px [py ->]]; unfold macro in I1, I2; cbn [map combine In] in I1, I2.
  all: destruct I1 as [I1|[I1|[I1|[]]]]; injection I1 as <- <-; (destruct I2 as [I2|[I2|[I2|[]]]]; injection I2 as <- <-); try reflexivity.
  all: apply image_hull3 in C1, C2.
  all: try apply macro_hull0 in C1; try apply macro_hull1 in C1; try apply macro_hull2 in C1.
  all: try apply macro_hull0 in C2; try apply macro_hull1 in C2; try apply macro_hull2 in C2.
  all: simplify_values; generalize dependent (iX px py); generalize dependent (iY px py); intros; lra.
Qed.

Definition placed_corners : list pt := [[a0; a1]; [b0; b1]; [c0; c1]].
Lemma corners_image : placed_corners = map image corners.
Proof. unfold placed_corners, corners, image. cbn [map nth]. repeat apply (f_equal2 cons); try reflexivity; ring. Qed.
Lemma corners_hull px py : in_hull placed_corners [px; py] -> 0 <= iX px py /\ 0 <= iY px py /\ iX px py + iY px py <= 1.
Proof. rewrite corners_image. unfold corners. rewrite image_hull3, hull3. intros [u [v [w H]]]. lra. Qed.

Lemma halves_cover p : length p = 2%nat -> in_hull placed_corners p -> exists k, In k (map (map image) halves) /\ in_hull k p.
Proof.
  intros Hp. destruct (two Hp) as [px [py ->]]. intros H. apply corners_hull in H. unfold halves. cbn [map].
  destruct (Rle_dec (iX px py + iY px py) (1 / 2)); [eexists; split; [left; reflexivity|]; apply image_hull3, half0; lra|].
  destruct (Rle_dec (1 / 2) (iX px py)); [eexists; split; [right; left; reflexivity|]; apply image_hull3, half1; lra|].
  destruct (Rle_dec (1 / 2) (iY px py)); [eexists; split; [right; right; left; reflexivity|]; apply image_hull3, half2; lra|].
  eexists; split; [right; right; right; left; reflexivity|]; apply image_hull3, half3; lra.
Qed.
Lemma macro_image_cover p : length p = 2%nat -> in_hull placed_corners p -> exists k, In k (map (map image) macro) /\ in_hull k p.
Proof.
  intros Hp. destruct (two Hp) as [px [py ->]]. intros H.
  destruct (macro_cover [iX px py; iY px py] eq_refl) as [k [Hk Hi]].
  { rewrite corners_image in H. apply image_hull3. exact H. }
  exists (map image k). split; [apply in_map; exact Hk|].
  destruct Hk as [<-|[<-|[<-|[]]]]; apply image_hull3; exact Hi.
Qed.
Definition placed_square : list pt := map image [[0; 0]; [1; 0]; [0; 1]; [1; 1]].
Lemma quarters_cover p : length p = 2%nat -> in_hull placed_square p -> exists k, In k (map (map image) quarters) /\ in_hull k p.
Proof.
  intros Hp. destruct (two Hp) as [px [py ->]]. intros H. apply image_hull4, quarter in H; [|lra|lra]. unfold quarters. cbn [map].
  destruct (Rle_dec (iX px py) (1 / 2)), (Rle_dec (iY px py) (1 / 2)).
  - eexists; split; [left; reflexivity|]; apply image_hull4, quarter; lra.
  - eexists; split; [right; right; left; reflexivity|]; apply image_hull4, quarter; lra.
  - eexists; split; [right; left; reflexivity|]; apply image_hull4, quarter; lra.
  - eexists; split; [right; right; right; left; reflexivity|]; apply image_hull4, quarter; lra.
Qed.

(** * The elements *)

Definition placed_triangle : reference :=
  {| ReferencesModel.r_type := ReferencesModel.CTriangle; ReferencesModel.r_vertices := placed_corners; ReferencesModel.r_origin := [a0; a1];
     ReferencesModel.r_axes := [[b0 - a0; b1 - a1]; [c0 - a0; c1 - a1]] |}.
Lemma inverse_triangle : inverse_exprs placed_triangle = Ok [eX; eY].
Proof.
  unfold inverse_exprs. cbn -[edot difference]. unfold ReferencesModel.inv2, ReferencesModel.det2. cbn [fst snd]. destruct (Req_EM_T _ _) as [E|_]; [destruct HD; exact E|]. reflexivity.
Qed.
Lemma triangle_halves : placed_cells placed_triangle halves = Ok (map (map image) halves).
Proof. reflexivity. Qed.
Lemma triangle_macro : placed_cells placed_triangle macro = Ok (map (map image) macro).
Proof. reflexivity. Qed.

Definition middle (p q : list R) : list R := map (fun ij => (fst ij + snd ij) / 2) (combine p q).
Definition point_dof (p : list R) (d n : nat) : tagged := (PointEvaluation (nums p), (d, n)).
Lemma triangle_dofs : midpoint_dofs placed_triangle 3 [] =
  Ok [point_dof [a0; a1] 0 0; point_dof [b0; b1] 0 1; point_dof [c0; c1] 0 2;
      point_dof (middle [b0; b1] [c0; c1]) 1 0; point_dof (middle [a0; a1] [c0; c1]) 1 1; point_dof (middle [a0; a1] [b0; b1]) 1 2].
Proof.
  assert (M : forall p q, (0 + p + q) * 1 / INR 2 = (p + q) / 2) by (intros p q; simpl; field).
  unfold midpoint_dofs. cbn -[nums INR Rdiv Rmult Rplus]. rewrite !M. reflexivity.
Qed.

Lemma pieces_list cells pl fl : Forall2 (fun p fs => pieces_on cells 2 p = Ok (on_cells 2 cells fs)) pl fl ->
  ReferencesModel.map_r (pieces_on cells 2) pl = Ok (map (on_cells 2 cells) fl).
Proof. induction 1 as [|p fs pl fl H _ IH]; [reflexivity|]. cbn [ReferencesModel.map_r map]. rewrite H. cbn [rbind]. rewrite IH. reflexivity. Qed.

Lemma iso_triangle_closed : exists dofs, midpoint_dofs placed_triangle 3 [] = Ok dofs /\
  make_iso_triangle placed_triangle = Ok (map (on_cells 2 (map (map image) halves)) iso_triangle_pieces, dofs).
Proof.
  eexists. split; [apply triangle_dofs|]. unfold make_iso_triangle, with_inverse. rewrite inverse_triangle. cbn [rbind].
  change [[[0; 0]; [1 / 2; 0]; [0; 1 / 2]]; [[1; 0]; [1 / 2; 1 / 2]; [1 / 2; 0]]; [[0; 1]; [0; 1 / 2]; [1 / 2; 1 / 2]]; [[0; 1 / 2]; [1 / 2; 1 / 2]; [1 / 2; 0]]] with halves.
  rewrite triangle_halves. cbn [rbind]. pose proof halves_nodup as N.
  rewrite (pieces_list _ _ iso_triangle_pieces).
  { cbn [rbind]. rewrite triangle_dofs. reflexivity. }
  unfold iso_triangle_pieces. cbn [map].
  repeat (apply Forall2_cons; [eapply (pieces_good _ _ [_; _; _; _]); [discriminate|exact N|reflexivity|reflexivity|solve_parse|apply (scalar_kinds [_; _; _; _])]|]).
  constructor.
Qed.

Lemma node_at X Y q : ev (assign x_symbols (image [X; Y]) q) eX = X /\ ev (assign x_symbols (image [X; Y]) q) eY = Y.
Proof. destruct (inverse_image X Y) as [A B]. unfold image in *. cbn [nth] in *. rewrite ev_X, ev_Y. split; assumption. Qed.
Lemma image_in3 X Y p0 p1 q0 q1 s0 s1 : in_hull [[p0; p1]; [q0; q1]; [s0; s1]] [X; Y] -> in_hull (map image [[p0; p1]; [q0; q1]; [s0; s1]]) (image [X; Y]).
Proof. intros H. destruct (inverse_image X Y) as [A B]. unfold image in A, B |- * at 2. cbn [nth] in *. apply image_hull3. rewrite A, B. exact H. Qed.
Lemma image_in4 X Y p0 p1 q0 q1 s0 s1 t0 t1 : in_hull [[p0; p1]; [q0; q1]; [s0; s1]; [t0; t1]] [X; Y] -> in_hull (map image [[p0; p1]; [q0; q1]; [s0; s1]; [t0; t1]]) (image [X; Y]).
Proof. intros H. destruct (inverse_image X Y) as [A B]. unfold image in A, B |- * at 2. cbn [nth] in *. apply image_hull4. rewrite A, B. exact H. Qed.

Lemma image_points : [a0; a1] = image [0; 0] /\ [b0; b1] = image [1; 0] /\ [c0; c1] = image [0; 1] /\
  middle [b0; b1] [c0; c1] = image [1 / 2; 1 / 2] /\ middle [a0; a1] [c0; c1] = image [0; 1 / 2] /\ middle [a0; a1] [b0; b1] = image [1 / 2; 0].
Proof.
  unfold image, middle. cbn [map combine fst snd nth].
  repeat split; (apply (f_equal2 cons); [|apply (f_equal2 cons); [|reflexivity]]); field.
Qed.

Definition iso_triangle_matrix : list (list R) :=
  [[1; 0; 0; 0; 0; 0]; [0; 1; 0; 0; 0; 0]; [0; 0; 1; 0; 0; 0]; [0; 0; 0; 0; 0; 1]; [0; 0; 0; 0; 1; 0]; [0; 0; 0; 1; 0; 0]].

Ltac node_value := let A := fresh in let B := fresh in
  match goal with |- value_at (assign _ (image [?X; ?Y]) ?q) _ = _ => destruct (node_at X Y q) as [A B] end;
  cbn [map nth value_at]; apply (f_equal VS); unfold c, esub, eneg; cbn [ev]; rewrite ?A, ?B; lra.

Ltac half_row F Two Rg :=
  repeat (apply Forall2_cons; [
     first [apply (evaluates_cell 2 (map (map image) halves) _ 0 (image [_; _]) _ Two Rg F eq_refl); [simpl; lia|apply image_in3, half0; lra|node_value]
           |apply (evaluates_cell 2 (map (map image) halves) _ 1 (image [_; _]) _ Two Rg F eq_refl); [simpl; lia|apply image_in3, half1; lra|node_value]
           |apply (evaluates_cell 2 (map (map image) halves) _ 2 (image [_; _]) _ Two Rg F eq_refl); [simpl; lia|apply image_in3, half2; lra|node_value]]|]);
  apply Forall2_nil.
Lemma iso_triangle_values dofs : midpoint_dofs placed_triangle 3 [] = Ok dofs ->
  values_matrix (map (on_cells 2 (map (map image) halves)) iso_triangle_pieces) (map fst dofs) iso_triangle_matrix.
Proof.
  rewrite triangle_dofs. intros E. injection E as <-. unfold values_matrix, point_dof. cbn [map fst].
  destruct image_points as [-> [-> [-> [-> [-> ->]]]]].
  pose proof iso_triangle_fitting as F. unfold iso_triangle_pieces, iso_triangle_matrix in *. cbn [map] in F |- *.
  assert (Two : (1 <= 2 <= 3)%nat) by lia. pose proof halves_regular as Rg.
  do 6 (inversion_clear F as [|? ? F0 F1]; apply Forall2_cons; [half_row F0 Two Rg|]; clear F0; rename F1 into F).
  apply Forall2_nil.
Qed.

(** the parallelogram with the corners a, b, c and [d0; d1] *)
Variables d0 d1 : R.
Hypothesis Hd0 : a0 + d0 = b0 + c0.
Hypothesis Hd1 : a1 + d1 = b1 + c1.
Definition four_corners : list pt := [[a0; a1]; [b0; b1]; [c0; c1]; [d0; d1]].
Definition placed_quadrilateral : reference :=
  {| ReferencesModel.r_type := ReferencesModel.CQuadrilateral; ReferencesModel.r_vertices := four_corners; ReferencesModel.r_origin := [a0; a1];
     ReferencesModel.r_axes := [[b0 - a0; b1 - a1]; [c0 - a0; c1 - a1]] |}.

Lemma square_image : four_corners = placed_square.
Proof.
  unfold four_corners, placed_square, image. cbn [map nth].
  repeat (apply (f_equal2 cons); [apply (f_equal2 cons); [lra|apply (f_equal2 cons); [lra|reflexivity]]|]). reflexivity.
Qed.
Lemma inverse_quadrilateral : inverse_exprs placed_quadrilateral = Ok [eX; eY].
Proof.
  unfold inverse_exprs. cbn -[edot difference ReferencesModel.assert_parallelograms].
  unfold ReferencesModel.assert_parallelograms, ReferencesModel.parallelogram_ok. cbn -[edot difference list_eq_dec].
  match goal with |- context [list_eq_dec ?d ?l ?m] => destruct (list_eq_dec d l m) as [_|N] end; [|destruct N; unfold ReferencesModel.vadd; cbn [combine map fst snd]; rewrite Hd0, Hd1; reflexivity]. cbn -[edot difference].
  unfold ReferencesModel.inv2, ReferencesModel.det2. cbn [fst snd]. destruct (Req_EM_T _ _) as [E|_]; [destruct HD; exact E|]. reflexivity.
Qed.
Lemma quadrilateral_quarters : placed_cells placed_quadrilateral quarters = Ok (map (map image) quarters).
Proof. reflexivity. Qed.

Definition mean4 (p q r s : list R) : list R := map (fun ij => (fst (fst (fst ij)) + snd (fst (fst ij)) + snd (fst ij) + snd ij) / 4) (combine (combine (combine p q) r) s).
Lemma quadrilateral_dofs : midpoint_dofs placed_quadrilateral 4 [(PointEvaluation (nums (ReferencesModel.midpoint placed_quadrilateral)), (2%nat, 0%nat))] =
  Ok [point_dof [a0; a1] 0 0; point_dof [b0; b1] 0 1; point_dof [c0; c1] 0 2; point_dof [d0; d1] 0 3;
      point_dof (middle [a0; a1] [b0; b1]) 1 0; point_dof (middle [a0; a1] [c0; c1]) 1 1; point_dof (middle [b0; b1] [d0; d1]) 1 2; point_dof (middle [c0; c1] [d0; d1]) 1 3;
      point_dof (mean4 [a0; a1] [b0; b1] [c0; c1] [d0; d1]) 2 0].
Proof.
  assert (M : forall p q, (0 + p + q) * 1 / INR 2 = (p + q) / 2) by (intros p q; simpl; field).
  assert (M4 : forall p q r s, (0 + p + q + r + s) * 1 / INR 4 = (p + q + r + s) / 4) by (intros p q r s; simpl; field).
  unfold midpoint_dofs. cbn -[nums INR Rdiv Rmult Rplus]. rewrite !M, !M4. reflexivity.
Qed.
Lemma iso_quadrilateral_closed : exists dofs,
  midpoint_dofs placed_quadrilateral 4 [(PointEvaluation (nums (ReferencesModel.midpoint placed_quadrilateral)), (2%nat, 0%nat))] = Ok dofs /\
  make_iso_quadrilateral placed_quadrilateral = Ok (map (on_cells 2 (map (map image) quarters)) iso_quadrilateral_pieces, dofs).
Proof.
  eexists. split; [apply quadrilateral_dofs|]. unfold make_iso_quadrilateral, with_inverse. rewrite inverse_quadrilateral. cbn [rbind].
  change (placed_cells placed_quadrilateral _) with (placed_cells placed_quadrilateral quarters).
  rewrite quadrilateral_quarters. cbn [rbind]. pose proof quarters_nodup as N.
  rewrite (pieces_list _ _ iso_quadrilateral_pieces).
  { cbn [rbind]. rewrite quadrilateral_dofs. reflexivity. }
  unfold iso_quadrilateral_pieces. cbn [map].
  repeat (apply Forall2_cons; [eapply (pieces_good _ _ [_; _; _; _]); [discriminate|exact N|reflexivity|reflexivity|solve_parse|apply (scalar_kinds [_; _; _; _])]|]).
  constructor.
Qed.

Definition identity (n : nat) : list (list R) := map (fun i => map (fun j => if Nat.eqb i j then 1 else 0) (seq 0 n)) (seq 0 n).
Lemma quadrilateral_points : [d0; d1] = image [1; 1] /\ middle [b0; b1] [d0; d1] = image [1; 1 / 2] /\ middle [c0; c1] [d0; d1] = image [1 / 2; 1] /\
  mean4 [a0; a1] [b0; b1] [c0; c1] [d0; d1] = image [1 / 2; 1 / 2].
Proof.
  unfold image, middle, mean4. cbn [map combine fst snd nth].
  repeat split; (apply (f_equal2 cons); [|apply (f_equal2 cons); [|reflexivity]]); lra.
Qed.
Ltac quarter_row F Two Rg :=
  repeat (apply Forall2_cons; [
     first [apply (evaluates_cell 2 (map (map image) quarters) _ 0 (image [_; _]) _ Two Rg F eq_refl); [simpl; lia|apply image_in4, quarter; lra|node_value]
           |apply (evaluates_cell 2 (map (map image) quarters) _ 1 (image [_; _]) _ Two Rg F eq_refl); [simpl; lia|apply image_in4, quarter; lra|node_value]
           |apply (evaluates_cell 2 (map (map image) quarters) _ 2 (image [_; _]) _ Two Rg F eq_refl); [simpl; lia|apply image_in4, quarter; lra|node_value]
           |apply (evaluates_cell 2 (map (map image) quarters) _ 3 (image [_; _]) _ Two Rg F eq_refl); [simpl; lia|apply image_in4, quarter; lra|node_value]]|]);
  apply Forall2_nil.
Lemma iso_quadrilateral_values dofs : 0 < D ->
  midpoint_dofs placed_quadrilateral 4 [(PointEvaluation (nums (ReferencesModel.midpoint placed_quadrilateral)), (2%nat, 0%nat))] = Ok dofs ->
  values_matrix (map (on_cells 2 (map (map image) quarters)) iso_quadrilateral_pieces) (map fst dofs) (identity 9).
Proof.
  intros HP. rewrite quadrilateral_dofs. intros E. injection E as <-. unfold values_matrix, point_dof. cbn [map fst].
  destruct quadrilateral_points as [P1 [P2 [P3 P4]]]. destruct image_points as [E0 [E1 [E2 [_ [E4 E5]]]]].
  rewrite P4, P3, P2, E5, E4, P1, E2, E1, E0. clear P1 P2 P3 P4 E0 E1 E2 E4 E5.
  pose proof iso_quadrilateral_fitting as F. unfold iso_quadrilateral_pieces, identity in *. cbn [map seq Nat.eqb] in F |- *.
  assert (Two : (1 <= 2 <= 3)%nat) by lia. pose proof (quarters_regular HP) as Rg.
  do 9 (inversion_clear F as [|? ? F0 F1]; apply Forall2_cons; [quarter_row F0 Two Rg|]; clear F0; rename F1 into F).
  apply Forall2_nil.
Qed.

(** P1 macro *)
Lemma jacobian_triangle : ReferencesModel.jacobian placed_triangle = Ok (Rabs ((b0 - a0) * (c1 - a1) - (b1 - a1) * (c0 - a0))).
Proof. reflexivity. Qed.
Definition p1_macro_dofs : list tagged :=
  [point_dof [a0; a1] 0 0; point_dof [b0; b1] 0 1; point_dof [c0; c1] 0 2;
   (IntegralMoment placed_triangle (FS (EDiv (ENum 1) (ENum (Rabs ((b0 - a0) * (c1 - a1) - (b1 - a1) * (c0 - a0)))))), (2%nat, 0%nat))].
Lemma p1_macro_closed : make_p1_macro placed_triangle = Ok (map (on_cells 2 (map (map image) macro)) p1_macro_pieces, p1_macro_dofs).
Proof.
  unfold make_p1_macro.
  change (placed_cells placed_triangle _) with (placed_cells placed_triangle macro).
  rewrite triangle_macro. cbn [rbind]. unfold with_inverse. rewrite inverse_triangle. cbn [rbind]. pose proof macro_image_nodup as N.
  rewrite (pieces_list _ _ p1_macro_pieces).
  { reflexivity. }
  unfold p1_macro_pieces. cbn [map].
  repeat (apply Forall2_cons; [eapply (pieces_good _ _ [_; _; _]); [discriminate|exact N|reflexivity|reflexivity|solve_parse|apply (scalar_kinds [_; _; _])]|]).
  constructor.
Qed.
End Plane.

(** * Intervals *)

Fixpoint only_sym_x (e : expr) : bool :=
  match e with
  | ENum _ => true
  | ESym s => String.eqb s "x"
  | EAdd a b | EMul a b | EDiv a b => only_sym_x a && only_sym_x b
  | EPow a _ => only_sym_x a
  | _ => false
  end.
Lemma sym_x_ev e x q q' : only_sym_x e = true -> ev (assign x_symbols [x] q) e = ev (assign x_symbols [x] q') e.
Proof.
  intros H. induction e; simpl in *; try discriminate; try reflexivity.
  - apply String.eqb_eq in H. subst. reflexivity.
  - apply andb_prop in H. destruct H. rewrite IHe1, IHe2 by assumption. reflexivity.
  - apply andb_prop in H. destruct H. rewrite IHe1, IHe2 by assumption. reflexivity.
  - apply andb_prop in H. destruct H. rewrite IHe1, IHe2 by assumption. reflexivity.
  - rewrite IHe by assumption. reflexivity.
Qed.
Lemma sym_x_no_dummy e : only_sym_x e = true -> no_dummy e.
Proof.
  induction e; simpl; intros H i Hi; try discriminate; simpl in Hi; try contradiction.
  - apply String.eqb_eq in H. subst. discriminate.
  - apply andb_prop in H. destruct H, Hi; [apply (IHe1 H i)|apply (IHe2 H0 i)]; assumption.
  - apply andb_prop in H. destruct H, Hi; [apply (IHe1 H i)|apply (IHe2 H0 i)]; assumption.
  - apply andb_prop in H. destruct H, Hi; [apply (IHe1 H i)|apply (IHe2 H0 i)]; assumption.
  - apply (IHe H i). assumption.
Qed.
Lemma one {p : list R} : length p = 1%nat -> exists x, p = [x].
Proof. destruct p as [|x [|]]; try discriminate. intros _. exists x. reflexivity. Qed.
Lemma sym_x_fitting es cells : length es = length cells -> forallb only_sym_x es = true -> agree 1 cells (map FS es) -> fitting 1 cells (map FS es).
Proof.
  intros L H A. rewrite forallb_forall in H. split; [rewrite map_length; exact L|]. split; [|split; [|exact A]].
  - apply Forall_forall. intros f Hf. apply in_map_iff in Hf. destruct Hf as [e [<- He]]. split; [exact I|]. constructor; [apply sym_x_no_dummy, H, He|constructor].
  - apply Forall_forall. intros f Hf. apply in_map_iff in Hf. destruct Hf as [e [<- He]]. intros p q q' Hp. destruct (one Hp) as [x ->].
    cbn [value_at]. apply (f_equal VS). apply sym_x_ev, H, He.
Qed.
Lemma hull2 a b x : in_hull [[a]; [b]] [x] <-> exists u v, 0 <= u /\ 0 <= v /\ u + v = 1 /\ x = u * a + v * b.
Proof.
  split.
  - intros [l [[L [S C]] F]]. destruct l as [|u [|v [|]]]; try discriminate. exists u, v.
    pose proof (C 0%nat ltac:(simpl; lia)) as C0. unfold sumR in *. simpl in *.
    inversion_clear F as [|? ? F0 F']. inversion_clear F' as [|? ? F1 _]. repeat split; lra.
  - intros [u [v [U [V [S X]]]]]. exists [u; v]. split; [split; [reflexivity|split; [unfold sumR; simpl; lra|]]|apply Forall_cons; [exact U|apply Forall_cons; [exact V|constructor]]].
    intros [|j] Hj; simpl in Hj; try lia; unfold sumR; simpl; lra.
Qed.

Section Line.
Variables a b : R.
Hypothesis Hab : a <> b.
Definition line_image (q : list R) : list R := [a + (b - a) * nth 0 q 0].
Definition iT (x : R) : R := (x - a) / (b - a).
Definition eT : expr := EDiv (EMul (edot [b - a] (difference [a])) (ENum 1)) (ENum (ReferencesModel.vdot [b - a] [b - a])).
Lemma ev_T x q : ev (assign x_symbols [x] q) eT = iT x.
Proof.
  unfold eT, iT, edot, difference, esub, eneg, assign, x_symbols, FunctionsSpec.upd, ReferencesModel.vdot. cbn. field.
  repeat split; lra.
Qed.
Definition placed_interval : reference :=
  {| ReferencesModel.r_type := ReferencesModel.CInterval; ReferencesModel.r_vertices := [[a]; [b]]; ReferencesModel.r_origin := [a]; ReferencesModel.r_axes := [[b - a]] |}.
Definition parts : list (list pt) := [[[0]; [1 / 2]]; [[1 / 2]; [1]]].
Definition iso_interval_pieces : list (list func) :=
  map (map FS) [[#1 - #2 * eT; #0]; [#2 * eT; #2 - #2 * eT]; [#0; #2 * eT - #1]]%py.

Lemma line_hull s t x : in_hull (map line_image [[s]; [t]]) [x] <-> in_hull [[s]; [t]] [iT x].
Proof.
  cbn [map]. unfold line_image. cbn [nth]. rewrite !hull2. split; intros [u [v [U [V [S X]]]]]; exists u, v; repeat (split; [assumption|]).
  - rewrite X. unfold iT. replace v with (1 - u) by lra. field. lra.
  - unfold iT in X. assert (E : x = a + (b - a) * ((x - a) / (b - a))) by (field; lra). rewrite E, X. replace v with (1 - u) by lra. ring.
Qed.
Lemma part s t x : s < t -> in_hull [[s]; [t]] [x] <-> s <= x <= t.
Proof.
  intros H. rewrite hull2. split.
  - intros [u [v [U [V [S ->]]]]]. replace u with (1 - v) in * by lra. assert (0 <= v * (t - s)) by (apply Rmult_le_pos; lra). assert (0 <= (1 - v) * (t - s)) by (apply Rmult_le_pos; lra). lra.
  - intros [A B]. exists ((t - x) / (t - s)), ((x - s) / (t - s)).
    split; [apply Rmult_le_pos; [lra|apply Rlt_le, Rinv_0_lt_compat; lra]|]. split; [apply Rmult_le_pos; [lra|apply Rlt_le, Rinv_0_lt_compat; lra]|]. split; field; lra.
Qed.
Lemma parts_regular : Forall (regular 1) (map (map line_image) parts).
Proof.
  unfold parts, line_image. cbn [map nth]. repeat (apply Forall_cons; [split; [split; [reflexivity|apply Forall_cons; [reflexivity|apply Forall_cons; [reflexivity|constructor]]]|unfold co; cbn [nth]; lra]|]). constructor.
Qed.
Lemma parts_nodup : NoDup (map (map line_image) parts).
Proof.
  unfold parts, line_image. cbn [map nth]. apply NoDup_cons; [|apply NoDup_cons; [intros []|constructor]].
  intros [E|[]]. injection E as E1 E2. lra.
Qed.
Lemma iso_interval_fitting : Forall (fitting 1 (map (map line_image) parts)) iso_interval_pieces.
Proof.
  unfold iso_interval_pieces. cbn [map].
  repeat (apply Forall_cons; [match goal with |- fitting _ _ [FS ?d; FS ?e] => apply (sym_x_fitting [d; e]) end; [reflexivity|reflexivity|]|]); [..|constructor].
  all: intros k1 f1 k2 f2 p Hp I1 I2 C1 C2 q; destruct (one Hp) as [px ->]; unfold parts in I1, I2; cbn [map combine In] in I1, I2.
  all: destruct I1 as [I1|[I1|[]]]; injection I1 as <- <-; (destruct I2 as [I2|[I2|[]]]; injection I2 as <- <-); try reflexivity.
  all: apply line_hull, part in C1; [|lra]; apply line_hull, part in C2; [|lra].
  all: cbn [value_at]; apply (f_equal VS); unfold esub, eneg; cbn [ev]; rewrite ?ev_T; lra.
Qed.
Lemma parts_cover p : length p = 1%nat -> in_hull [[a]; [b]] p -> exists k, In k (map (map line_image) parts) /\ in_hull k p.
Proof.
  intros Hp. destruct (one Hp) as [x ->]. intros H.
  assert (T : 0 <= iT x <= 1).
  { apply (part 0 1); [lra|]. apply line_hull. unfold line_image. cbn [map nth]. replace (a + (b - a) * 0) with a by ring. replace (a + (b - a) * 1) with b by ring. exact H. }
  unfold parts. cbn [map]. destruct (Rle_dec (iT x) (1 / 2)).
  - eexists. split; [left; reflexivity|]. apply line_hull, part; lra.
  - eexists. split; [right; left; reflexivity|]. apply line_hull, part; lra.
Qed.
Lemma interval_dofs : midpoint_dofs placed_interval 1 [] = Ok [point_dof [a] 0 0; point_dof [b] 0 1; point_dof [(a + b) / 2] 1 0].
Proof.
  assert (M : forall p q, (0 + p + q) * 1 / INR 2 = (p + q) / 2) by (intros p q; simpl; field).
  unfold midpoint_dofs. cbn -[nums INR Rdiv Rmult Rplus]. rewrite !M. reflexivity.
Qed.
Lemma pieces_good1 cells pieces vs fs : cells <> [] -> NoDup cells -> length vs = length cells ->
  map (fun iq => (snd iq, match find (fun ie => Nat.eqb (fst ie) (fst iq)) pieces with
                          | Some ie => PExpr (snd ie)
                          | None => PInt 0
                          end)) (numbered cells) = combine cells vs ->
  Forall2 (fun v f => parse_function_input v = Ok f) vs fs -> same_kinds fs ->
  pieces_on cells 1 pieces = Ok (on_cells 1 cells fs).
Proof. intros H1 H2 H3 H4 H5 H6. unfold pieces_on. rewrite H4. apply make_pw_cells; assumption. Qed.
Lemma iso_interval_closed : make_iso_interval placed_interval =
  Ok (map (on_cells 1 (map (map line_image) parts)) iso_interval_pieces, [point_dof [a] 0 0; point_dof [b] 0 1; point_dof [(a + b) / 2] 1 0]).
Proof.
  unfold make_iso_interval. change (placed_cells placed_interval _) with (placed_cells placed_interval parts).
  change (placed_cells placed_interval parts) with (@Ok (list (list pt)) (map (map line_image) parts)). cbn [rbind].
  change (inverse_exprs placed_interval) with (@Ok (list expr) [eT]). cbn [rbind]. change (ReferencesModel.get [eT] 0) with (@Ok expr eT). cbn [rbind].
  pose proof parts_nodup as N. cbn [ReferencesModel.map_r].
  erewrite (pieces_good1 _ _ [_; _]); [|discriminate|exact N|reflexivity|reflexivity|solve_parse|apply (scalar_kinds [_; _])]. cbn [rbind].
  erewrite (pieces_good1 _ _ [_; _]); [|discriminate|exact N|reflexivity|reflexivity|solve_parse|apply (scalar_kinds [_; _])]. cbn [rbind].
  erewrite (pieces_good1 _ _ [_; _]); [|discriminate|exact N|reflexivity|reflexivity|solve_parse|apply (scalar_kinds [_; _])]. cbn [rbind].
  rewrite interval_dofs. reflexivity.
Qed.
Definition iso_interval_matrix : list (list R) := [[1; 0; 0]; [0; 0; 1]; [0; 1; 0]].
Lemma iso_interval_values : values_matrix (map (on_cells 1 (map (map line_image) parts)) iso_interval_pieces)
  (map fst [point_dof [a] 0 0; point_dof [b] 0 1; point_dof [(a + b) / 2] 1 0]) iso_interval_matrix.
Proof.
  pose proof iso_interval_fitting as F. unfold values_matrix, point_dof, iso_interval_pieces, iso_interval_matrix in *. cbn [map fst] in F |- *.
  assert (One : (1 <= 1 <= 3)%nat) by lia. pose proof parts_regular as Rg.
  assert (TA : iT a = 0) by (unfold iT; field; lra). assert (TB : iT b = 1) by (unfold iT; field; lra). assert (TM : iT ((a + b) / 2) = 1 / 2) by (unfold iT; field; lra).
  do 3 (inversion_clear F as [|? ? F0 F1]; apply Forall2_cons;
    [repeat (apply Forall2_cons; [
      first [apply (evaluates_cell 1 (map (map line_image) parts) _ 0 [_] _ One Rg F0 eq_refl); [simpl; lia|apply line_hull, part; lra|cbn [map nth value_at]; apply (f_equal VS); unfold esub, eneg; cbn [ev]; rewrite ?ev_T; lra]
            |apply (evaluates_cell 1 (map (map line_image) parts) _ 1 [_] _ One Rg F0 eq_refl); [simpl; lia|apply line_hull, part; lra|cbn [map nth value_at]; apply (f_equal VS); unfold esub, eneg; cbn [ev]; rewrite ?ev_T; lra]]|]); apply Forall2_nil|]; clear F0; rename F1 into F).
  apply Forall2_nil.
Qed.
End Line.
