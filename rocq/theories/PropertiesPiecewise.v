(** Property C45: piecewise functions (symfem/piecewise_functions.py). *)
From Coquelicot Require Import Coquelicot.
From Coq Require Import String Reals ZArith Arith Bool Lia Lra List.
From Verif Require Import Base.
From Verif Require ReferencesModel.
From Verif Require Import ReferencesSpec ReferencesGeometry GeometryModel GeometryProofs PropertiesGeometry.
From Verif Require Import FunctionsModel FunctionsSpec FunctionsProofs FunctionsArith FunctionsSubs PropertiesFunctions.
From Verif Require Import FunctionalsModel FunctionalsSpec FunctionalsProofs FunctionalsValues.
From Verif Require Import PiecewiseModel PiecewiseProofs.
Import ListNotations.
Local Open Scope R_scope.

Local Notation "'X'" := (ESym "x"%string).

(** * Evaluation *)

(** On pieces whose cells have membership tests that are exact (non-degenerate intervals, triangles, tetrahedra,
    and convex quadrilaterals numbered anticlockwise), substituting constants for x, y, z evaluates the first
    piece whose cell contains the point; outside all cells NotImplementedError is raised. *)
Theorem C45_evaluation_partial a n l es :
  pw_tdim a = n -> (1 <= n <= 3)%nat -> Forall (fun sf => regular n (fst sf)) (pw_pieces a) ->
  Forall (fun sf => wf (PFun (snd sf)) /\ Forall no_dummy (components (snd sf))) (pw_pieces a) ->
  length l = n -> constants l = Ok (Some es) ->
  (forall f, first_at (pw_pieces a) (map number es) f ->
     exists h, pw_subs false a (VarList x_symbols) (PSeq l) = Ok (SFun h) /\
       forall q, value_at q h = value_at (assign x_symbols (map number es) q) f) /\
  ((forall sf, In sf (pw_pieces a) -> ~ in_hull (fst sf) (map number es)) ->
   pw_subs false a (VarList x_symbols) (PSeq l) = Err NotImplementedError).
Proof.
  intros T Hn Hr Hw Hl Hc. destruct (constants_spec l es Hc) as [Hm Hs].
  assert (Hlen : length (map number es) = n).
  { rewrite map_length. apply map_res_split in Hm. rewrite <- Hl. clear - Hm. induction Hm; simpl; congruence. }
  destruct (get_piece_spec n a (map number es) T Hn Hlen Hr) as [G1 G2].
  unfold pw_subs. cbn [as_sympy]. rewrite T, Hl, Nat.eqb_refl, Hc. cbn [rbind]. split.
  - intros f Hf. rewrite (proj2 (G1 f) Hf). cbn [rbind].
    assert (Hin : exists k, In (k, f) (pw_pieces a)).
    { destruct Hf as [bf [c [af [E _]]]]. exists c. rewrite E. apply in_or_app. right. left. reflexivity. }
    destruct Hin as [k Hin]. rewrite Forall_forall in Hw. destruct (Hw _ Hin) as [W D]. simpl in W, D.
    assert (Hnd : Forall no_dummy es).
    { apply Forall_impl with (2 := Hs). intros e He i Hi. clear - He Hi. induction e; simpl in *; try discriminate; try contradiction;
        try (apply andb_prop in He; destruct He; destruct Hi; auto); auto. }
    assert (S : forall q, exists h, f_subs f (VarList x_symbols) (PSeq l) = Ok h /\ value_at q h = value_at (assign x_symbols (map (ev q) es) q) f).
    { intros q. apply (C41_subs_simultaneous q f x_symbols (PSeq l) l es); auto.
      intros v i Hv. simpl in Hv. intuition (subst; discriminate). }
    destruct (S (fun _ => 0)) as [h [E1 _]]. exists h. rewrite E1. split; [reflexivity|]. intros q.
    destruct (S q) as [h' [E2 E3]]. assert (h' = h) by congruence. subst. rewrite E3. f_equal. f_equal.
    apply map_ext_in. intros e He. rewrite Forall_forall in Hs. symmetry. apply number_ev. apply Hs. exact He.
  - intros H. rewrite (G2 H). reflexivity.
Qed.
Print Assumptions C45_evaluation_partial.

(** The hat function on [0,1/2], [1/2,1]. *)
Definition hat : piecewise :=
  {| pw_pieces := [([[0]; [1 / 2]], FS (EMul (ENum 2) X)); ([[1 / 2]; [1]], FS (EAdd (ENum 2) (EMul (ENum (-2)) X)))];
     pw_tdim := 1 |}.

Lemma hat_ok : pw_ok hat.
Proof.
  repeat split.
  - discriminate.
  - constructor; [|repeat constructor; simpl; tauto]. intros [H|[]]. injection H. lra.
  - intros a b Ha Hb. simpl in Ha, Hb. intuition (subst; reflexivity).
Qed.
Lemma hat_regular : Forall (fun sf => regular 1 (fst sf)) (pw_pieces hat).
Proof. repeat constructor; simpl; unfold co; simpl; try lra. Qed.

Lemma interval_hull (a b x : R) : a <= x <= b -> in_hull [[a]; [b]] [x].
Proof.
  intros H. destruct (Req_dec a b) as [->|E].
  - exists [0; 1]. split; [split; [reflexivity|split; [unfold sumR; simpl; ring|]]|repeat constructor; lra].
    intros [|j] Hj; [|simpl in Hj; lia]. unfold sumR. simpl. lra.
  - exists [(b - x) / (b - a); (x - a) / (b - a)]. assert (0 < / (b - a)) by (apply Rinv_0_lt_compat; lra).
    split; [split; [reflexivity|split; [unfold sumR; simpl; field; lra|]]|apply Forall_cons; [apply Rmult_le_pos; lra|apply Forall_cons; [apply Rmult_le_pos; lra|constructor]]].
    intros [|j] Hj; [|simpl in Hj; lia]. unfold sumR. simpl. field. lra.
Qed.
Lemma hull_interval (a b x : R) : a <= b -> in_hull [[a]; [b]] [x] -> a <= x <= b.
Proof.
  intros H [w [[L [S C]] F]]. destruct w as [|w0 [|w1 [|]]]; try discriminate. specialize (C 0%nat (Nat.lt_0_succ _)).
  unfold sumR in *. simpl in *. inversion_clear F as [|? ? F0 F']. inversion_clear F' as [|? ? F1 _]. nra.
Qed.

Example C45_evaluation_case : exists h, pw_subs false hat (VarList x_symbols) (PSeq [PExpr (EDiv (ENum 3) (ENum 4))]) = Ok (SFun h) /\
  (forall q, value_at q h = VS (1 / 2)) /\ pw_subs false hat (VarList x_symbols) (PSeq [PInt 2]) = Err NotImplementedError.
Proof.
  assert (W : Forall (fun sf => wf (PFun (snd sf)) /\ Forall no_dummy (components (snd sf))) (pw_pieces hat)).
  { repeat constructor; intros i Hi; simpl in Hi; intuition discriminate. }
  destruct (C45_evaluation_partial hat 1 [PExpr (EDiv (ENum 3) (ENum 4))] [EDiv (ENum 3) (ENum 4)] eq_refl ltac:(lia) hat_regular W eq_refl eq_refl) as [H _].
  destruct (H (FS (EAdd (ENum 2) (EMul (ENum (-2)) X)))) as [h [E1 E2]].
  - exists [([[0]; [1 / 2]], FS (EMul (ENum 2) X))], [[1 / 2]; [1]], []. split; [reflexivity|]. simpl. split.
    + apply interval_hull. lra.
    + repeat constructor. simpl. intros Hh. apply hull_interval in Hh; lra.
  - exists h. split; [exact E1|]. split.
    + intros q. rewrite E2. simpl. f_equal. unfold assign, upd. simpl. lra.
    + apply (C45_evaluation_partial hat 1 [PInt 2] [ENum 2] eq_refl ltac:(lia) hat_regular W eq_refl eq_refl).
      intros sf [<-|[<-|[]]]; simpl; intros Hh; apply hull_interval in Hh; lra.
Qed.

(** A quadrilateral numbered clockwise rejects every point (C46), so its piece is never found. *)
Theorem C45_clockwise_quadrilateral_refuted : exists a cell f p, pw_ok a /\ pw_pieces a = [(cell, f)] /\
  in_hull cell p /\ get_piece false a p = Err NotImplementedError.
Proof.
  exists {| pw_pieces := [([[0; 0]; [0; 1]; [1; 0]; [1; 1]], FS (ENum 1))]; pw_tdim := 2 |}, [[0; 0]; [0; 1]; [1; 0]; [1; 1]], (FS (ENum 1)), [1 / 2; 1 / 2].
  split; [|split; [reflexivity|split]].
  - repeat split; [discriminate|repeat constructor; simpl; tauto|]. intros x y Hx Hy. simpl in Hx, Hy. intuition (subst; reflexivity).
  - exists [1 / 4; 1 / 4; 1 / 4; 1 / 4]. split; [split; [reflexivity|split; [unfold sumR; simpl; lra|]]|repeat constructor; lra].
    intros [|[|j]] Hj; simpl in Hj; try lia; unfold sumR; simpl; lra.
  - unfold get_piece. cbn [pw_tdim pw_pieces first_piece in_cell length firstn].
    rewrite quad_clockwise; [reflexivity| | |reflexivity].
    + split; [reflexivity|repeat constructor].
    + unfold convex_quad, orient2. cbn [nth]. lra.
Qed.
Print Assumptions C45_clockwise_quadrilateral_refuted.

(** * Operations *)

Lemma function_result_fun r : function_result (rmap PFun r) = r.
Proof. destruct r; reflexivity. Qed.

Lemma on_pieces_evaluates g a c fl p : pw_ok a -> on_pieces g a = Ok c ->
  pw_ok c /\ pw_tdim c = pw_tdim a /\ map fst (pw_pieces c) = map fst (pw_pieces a) /\
  get_piece fl c p = rbind (get_piece fl a p) g.
Proof.
  intros Ha H. unfold on_pieces in H. split; [|split; [|split]].
  - unfold pw_map in H. destruct (map_res _ _); [|discriminate]. cbn [rbind] in H. exact (proj1 (make_pw_ok _ _ _ H)).
  - exact (proj2 (pw_map_pieces _ _ _ Ha H)).
  - pose proof (proj1 (pw_map_pieces _ _ _ Ha H)) as F. clear - F. induction F as [|x y l r [E _] _ IH]; simpl; [reflexivity|]. congruence.
  - rewrite (pw_map_evaluates _ _ _ fl p Ha H). destruct (get_piece fl a p) as [f|]; [|reflexivity]. apply function_result_fun.
Qed.

(** c has the cells of a, and at every point its piece is the image under g of the piece of a. *)
Definition pieces_of (g : func -> res func) (a c : piecewise) : Prop :=
  pw_ok c /\ pw_tdim c = pw_tdim a /\ map fst (pw_pieces c) = map fst (pw_pieces a) /\
  forall fl p, get_piece fl c p = rbind (get_piece fl a p) g.

(** Powers, negation, derivatives, products and norms of a piecewise function are, at every point, those of the
    piece at that point; the cells stay. *)
Theorem C45_unary_operations a c : pw_ok a ->
  (forall n, pw_pow a n = Ok c -> pieces_of (fun f => f_pow f n) a c) /\
  (pw_neg a = Ok c -> pieces_of f_neg a c) /\
  (forall s, pw_diff a s = Ok c -> pieces_of (fun f => f_diff f s) a c) /\
  (forall d, pw_directional_derivative a d = Ok c -> pieces_of (fun f => f_directional_derivative f d) a c) /\
  (forall d, pw_jacobian a d = Ok c -> pieces_of (fun f => f_jacobian f d) a c) /\
  (forall v, pw_dot a v = Ok c -> pieces_of (fun f => f_dot f v) a c) /\
  (forall v, pw_cross a v = Ok c -> pieces_of (fun f => f_cross f v) a c) /\
  (pw_div a = Ok c -> pieces_of f_div a c) /\
  (forall d, pw_grad a d = Ok c -> pieces_of (fun f => f_grad f d) a c) /\
  (pw_curl a = Ok c -> pieces_of f_curl a c) /\
  (pw_norm a = Ok c -> pieces_of f_norm a c).
Proof.
  intros Ha. assert (G : forall g, on_pieces g a = Ok c -> pieces_of g a c).
  { intros g H. pose proof (fun fl p => on_pieces_evaluates g a c fl p Ha H) as E. destruct (E true []) as [E1 [E2 [E3 _]]].
    split; [exact E1|]. split; [exact E2|]. split; [exact E3|]. intros fl p. apply E. }
  repeat (split; [intros; apply G; assumption|]). intros; apply G; assumption.
Qed.
Print Assumptions C45_unary_operations.

(** They succeed when the operation succeeds on every piece, with results of one kind. *)
Theorem C45_unary_operations_succeed a g : pw_ok a ->
  (forall f, In f (map snd (pw_pieces a)) -> exists h, g f = Ok h) ->
  (forall f f' h h', In f (map snd (pw_pieces a)) -> In f' (map snd (pw_pieces a)) -> g f = Ok h -> g f' = Ok h' -> same_kind h h' = true) ->
  exists c, on_pieces g a = Ok c.
Proof.
  intros [Hne [Hn _]] Hs Hk.
  assert (F : exists hs, Forall2 (fun sf h => g (snd sf) = Ok h) (pw_pieces a) hs).
  { clear - Hs. induction (pw_pieces a) as [|[k f] l IH]; [exists []; constructor|].
    destruct (Hs f (or_introl eq_refl)) as [h Hh]. destruct IH as [hs Hhs]; [intros x Hx; apply Hs; right; exact Hx|].
    exists (h :: hs). constructor; assumption. }
  destruct F as [hs F]. unfold on_pieces, pw_map.
  assert (E : map_res (fun sf => rmap (pair (fst sf)) (rmap PFun (g (snd sf)))) (pw_pieces a) = Ok (combine (map fst (pw_pieces a)) (map PFun hs))).
  { clear - F. induction F as [|[k f] h l r H _ IH]; [reflexivity|]. simpl in *. rewrite H. simpl. rewrite IH. reflexivity. }
  rewrite E. cbn [rbind].
  assert (L : length (map fst (pw_pieces a)) = length hs) by (rewrite map_length; clear - F; induction F; simpl; congruence).
  assert (K : map fst (combine (map fst (pw_pieces a)) (map PFun hs)) = map fst (pw_pieces a)).
  { clear - L. revert hs L. induction (map fst (pw_pieces a)) as [|k l IH]; intros [|h hs] L; try discriminate; [reflexivity|]. simpl. f_equal. apply IH. simpl in L. congruence. }
  eexists. apply make_pw_success with (fs := hs).
  - intros E0. rewrite E0 in K. destruct (pw_pieces a); [congruence|discriminate].
  - rewrite K. exact Hn.
  - clear - L. revert hs L. induction (map fst (pw_pieces a)) as [|k l IH]; intros [|h hs] L; try discriminate; simpl; constructor; [reflexivity|]. apply IH. simpl in L. congruence.
  - assert (P : forall h, In h hs -> exists f, In f (map snd (pw_pieces a)) /\ g f = Ok h).
    { clear - F. induction F as [|[k f] h l r H _ IH]; intros x Hx; [destruct Hx|]. destruct Hx as [<-|Hx].
      - exists f. split; [left; reflexivity|exact H].
      - destruct (IH x Hx) as [f' [I1 I2]]. exists f'. split; [right; exact I1|exact I2]. }
    intros f f' Hf Hf'. destruct (P f Hf) as [u [U1 U2]]. destruct (P f' Hf') as [v [V1 V2]]. exact (Hk u v f f' U1 V1 U2 V2).
Qed.
Print Assumptions C45_unary_operations_succeed.

Example C45_unary_case : exists c, pw_diff hat "x"%string = Ok c /\ pw_ok hat.
Proof.
  destruct (C45_unary_operations_succeed hat (fun f => f_diff f "x"%string) hat_ok) as [c Hc].
  - intros f [<-|[<-|[]]]; eexists; reflexivity.
  - intros f f' h h' [<-|[<-|[]]] [<-|[<-|[]]] H H'; cbn in H, H'; injection H as <-; injection H' as <-; reflexivity.
  - exists c. split; [exact Hc|exact hat_ok].
Qed.

Definition all_wf (a : piecewise) : Prop := Forall (fun sf => wf (PFun (snd sf))) (pw_pieces a).

Lemma first_piece_in fl n p l f : first_piece fl n p l = Ok f -> exists k, In (k, f) l.
Proof.
  induction l as [|[k g] l IH]; simpl; [discriminate|]. destruct (in_cell fl n p k) as [[]|]; simpl; try discriminate.
  - intros H. injection H as <-. exists k. left. reflexivity.
  - intros H. destruct (IH H) as [k' Hk]. exists k'. right. exact Hk.
Qed.
Lemma get_piece_in fl a p f : get_piece fl a p = Ok f -> exists k, In (k, f) (pw_pieces a).
Proof. unfold get_piece. destruct (pw_tdim a) as [|[|[|[|n]]]]; try discriminate; apply first_piece_in. Qed.

Lemma get_piece_wf fl a p f : all_wf a -> get_piece fl a p = Ok f -> wf (PFun f).
Proof. intros W H. destruct (get_piece_in fl a p f H) as [k Hk]. unfold all_wf in W. rewrite Forall_forall in W. exact (W _ Hk). Qed.

Lemma denotes_value q f u : denotes q (PFun f) u -> value_at q f = u.
Proof. destruct f, u; simpl; try contradiction; congruence. Qed.
Lemma value_denotes q f : denotes q (PFun f) (value_at q f).
Proof. destruct f; reflexivity. Qed.


(** An operand of an arithmetic operation: a piecewise function, a number, an expression or a function. *)
Definition operand_ok (n : nat) (o : operand) : Prop :=
  match o with
  | OPw a => pw_ok a /\ all_wf a /\ pw_tdim a = n
  | OVal v => wf v /\ match v with PInt _ | PExpr _ | PFun _ => True | _ => False end
  end.
(** What stands for the operand at the point p, and its value when the symbols have the values q. *)
Definition operand_at (fl : bool) (o : operand) (p : list R) (v : pyval) : Prop :=
  match o with OPw a => exists f, get_piece fl a p = Ok f /\ v = PFun f | OVal w => v = w end.
Definition value_of (fl : bool) (o : operand) (p : list R) (q : env) (u : val) : Prop :=
  exists v, operand_at fl o p v /\ denotes q v u.

Lemma binop_result op rop eop a b r : binop op rop eop a b = Ok r -> (exists h, r = PFun h) \/ (exists e, r = PExpr e).
Proof.
  assert (R : forall x : res func, rmap PFun x = Ok r -> exists h, r = PFun h).
  { intros [x|] H; [|discriminate]. injection H as <-. eauto. }
  assert (F : forall s, finish s = Ok r -> exists h, r = PFun h) by (intros [s|] H; [apply (R s H)|discriminate]).
  destruct a as [z|e|f|l|m|]; simpl; try discriminate.
  - destruct b; try discriminate. intros H. left. exact (F _ H).
  - destruct b as [z|e'|[g|g|g]|l|m|]; try discriminate; intros H; [right; injection H as <-; eauto|left; exact (F _ H)|left; exact (F _ H)].
  - destruct (op f b); [intros H; left; exact (R _ H)|]. destruct b; try discriminate. destruct (same_class f f0); [discriminate|].
    intros H. left. exact (F _ H).
  - destruct b; try discriminate. intros H. left. exact (F _ H).
Qed.

Lemma parse_result q r h u : (exists h, r = PFun h) \/ (exists e, r = PExpr e) -> parse_function_input r = Ok h -> denotes q r u -> value_at q h = u.
Proof.
  intros [[g ->]|[e ->]] H D; simpl in H; injection H as <-.
  - apply denotes_value. exact D.
  - simpl in D. destruct u; try contradiction. simpl. congruence.
Qed.

Lemma pw_binop_evaluates op n x y c fl p vx vy :
  operand_ok n x -> operand_ok n y -> pw_binop op x y = Ok c -> operand_at fl x p vx -> operand_at fl y p vy ->
  exists r h, op vx vy = Ok r /\ parse_function_input r = Ok h /\ get_piece fl c p = Ok h.
Proof.
  intros Hx Hy H Ax Ay.
  assert (S : forall r, function_result r = rbind r parse_function_input) by reflexivity.
  destruct x as [a|v], y as [b|w]; simpl in *; try discriminate.
  - destruct Hx as [Ha [_ Ta]], Hy as [Hb [_ Tb]], Ax as [f [Gf ->]], Ay as [g [Gg ->]].
    pose proof (pw_zip_pieces op a b c Ha H) as [F T].
    assert (Z : forall m l l' r f g, Forall2 (fun xy z => fst (fst xy) = fst (snd xy) /\ fst z = fst (fst xy) /\
             function_result (op (PFun (snd (fst xy))) (PFun (snd (snd xy)))) = Ok (snd z)) (zip l l') r ->
             first_piece fl m p l = Ok f -> first_piece fl m p l' = Ok g -> exists h, function_result (op (PFun f) (PFun g)) = Ok h).
    { clear. intros m. induction l as [|[k f] l IH]; intros [|[k' g] l'] r f0 g0 F H1 H2; simpl in *; try discriminate.
      inversion F as [|? z ? r' [E1 [E2 E3]] F']; subst. simpl in E1, E2, E3. subst k'.
      destruct (in_cell fl m p k) as [[]|]; simpl in *; try discriminate.
      - injection H1 as <-. injection H2 as <-. eauto.
      - exact (IH l' r' f0 g0 F' H1 H2). }
    assert (E : exists h, function_result (op (PFun f) (PFun g)) = Ok h).
    { unfold get_piece in Gf, Gg. rewrite Ta in Gf. rewrite Tb in Gg.
      destruct n as [|[|[|[|n]]]]; try discriminate; exact (Z _ _ _ _ _ _ F Gf Gg). }
    destruct E as [h Eh]. pose proof (proj2 (pw_zip_evaluates op a b c fl p h Ha ltac:(congruence) H) (ex_intro _ f (ex_intro _ g (conj Gf (conj Gg Eh))))) as G.
    rewrite S in Eh. destruct (op (PFun f) (PFun g)) as [r|]; [|discriminate]. exists r, h. auto.
  - destruct Hx as [Ha _], Ax as [f [Gf ->]]. subst vy.
    destruct (get_piece_in fl a p f Gf) as [k Hk]. pose proof (pw_map_pieces _ a c Ha H) as [F _].
    assert (E : exists h, function_result (op (PFun f) w) = Ok h).
    { clear - F Hk. induction F as [|x y l r [E1 E2] _ IH]; [destruct Hk|]. destruct Hk as [->|Hk]; [eauto|exact (IH Hk)]. }
    destruct E as [h Eh]. pose proof (pw_map_evaluates _ a c fl p Ha H) as G. rewrite Gf in G. cbn [rbind] in G. rewrite Eh in G.
    rewrite S in Eh. destruct (op (PFun f) w) as [r|]; [|discriminate]. exists r, h. auto.
  - destruct Hy as [Ha _], Ay as [f [Gf ->]]. subst vx.
    destruct (get_piece_in fl b p f Gf) as [k Hk]. pose proof (pw_map_pieces _ b c Ha H) as [F _].
    assert (E : exists h, function_result (op v (PFun f)) = Ok h).
    { clear - F Hk. induction F as [|x y l r [E1 E2] _ IH]; [destruct Hk|]. destruct Hk as [->|Hk]; [eauto|exact (IH Hk)]. }
    destruct E as [h Eh]. pose proof (pw_map_evaluates _ b c fl p Ha H) as G. rewrite Gf in G. cbn [rbind] in G. rewrite Eh in G.
    rewrite S in Eh. destruct (op v (PFun f)) as [r|]; [|discriminate]. exists r, h. auto.
Qed.

Lemma operand_wf n fl o p v : operand_ok n o -> operand_at fl o p v -> wf v /\ not_sympy_matrix v /\ (match v with PSeq _ => False | _ => True end).
Proof.
  destruct o as [a|w]; simpl.
  - intros [_ [W _]] [f [G ->]]. split; [exact (get_piece_wf fl a p f W G)|]. split; exact I.
  - intros [W S] ->. destruct w; try contradiction; repeat split; assumption.
Qed.
Lemma pw_is_function fl x y p vx vy op c : pw_binop op x y = Ok c -> operand_at fl x p vx -> operand_at fl y p vy -> is_function vx \/ is_function vy.
Proof.
  destruct x as [a|v], y as [b|w]; simpl; try discriminate; intros _ H1 H2.
  - destruct H1 as [f [_ ->]]. left. exact I.
  - destruct H1 as [f [_ ->]]. left. exact I.
  - destruct H2 as [f [_ ->]]. right. exact I.
Qed.

(** Sums, differences, scalings and quotients have at every point the sum, difference, ... of the values. *)
Theorem C45_arithmetic_values n x y c fl p q u v :
  operand_ok n x -> operand_ok n y -> value_of fl x p q u -> value_of fl y p q v ->
  (pw_add x y = Ok c -> exists h, get_piece fl c p = Ok h /\ componentwise Rplus u v = Some (value_at q h)) /\
  (pw_sub x y = Ok c -> exists h, get_piece fl c p = Ok h /\ componentwise Rminus u v = Some (value_at q h)) /\
  (pw_mul x y = Ok c -> exists h, get_piece fl c p = Ok h /\ scaled u v = Some (value_at q h)) /\
  (pw_truediv x y = Ok c -> exists h, get_piece fl c p = Ok h /\ divided u v = Some (value_at q h)).
Proof.
  intros Hx Hy [vx [Ax Dx]] [vy [Ay Dy]].
  destruct (operand_wf n fl x p vx Hx Ax) as [Wx [Mx Sx]]. destruct (operand_wf n fl y p vy Hy Ay) as [Wy [My Sy]].
  assert (L : lists_fit vx vy) by (destruct vx as [?|?|[]|?|?|], vy as [?|?|[]|?|?|]; try contradiction; exact I).
  assert (U : forall w z a, denotes q w z -> denotes q w a -> (match w with PSeq _ => False | _ => True end) -> z = a).
  { intros w z a D D' N. destruct w as [?|?|[]|?|?|], z, a; simpl in *; try contradiction; congruence. }
  assert (NS : match vx, vy with PSeq _, _ | _, PSeq _ => False | _, _ => True end) by (destruct vx, vy; auto).
  repeat split; intros H.
  - pose proof (pw_is_function fl x y p vx vy _ c H Ax Ay) as Hf. destruct (pw_binop_evaluates _ n x y c fl p vx vy Hx Hy H Ax Ay) as [r [h [E1 [E2 E3]]]].
    exists h. split; [exact E3|]. pose proof (proj1 (C40_incompatible_rejected_partial q vx vy Wx Wy L)) as C. rewrite E1 in C.
    destruct C as [u' [v' [w [D1 [D2 [D3 D4]]]]]]. rewrite (U _ _ _ Dx D1 Sx), (U _ _ _ Dy D2 Sy), D3. f_equal. symmetry.
    apply (parse_result q r h w (binop_result _ _ _ _ _ _ E1) E2 D4).
  - pose proof (pw_is_function fl x y p vx vy _ c H Ax Ay) as Hf. destruct (pw_binop_evaluates _ n x y c fl p vx vy Hx Hy H Ax Ay) as [r [h [E1 [E2 E3]]]].
    exists h. split; [exact E3|]. pose proof (proj2 (C40_incompatible_rejected_partial q vx vy Wx Wy L)) as C. rewrite E1 in C.
    destruct C as [u' [v' [w [D1 [D2 [D3 D4]]]]]]. rewrite (U _ _ _ Dx D1 Sx), (U _ _ _ Dy D2 Sy), D3. f_equal. symmetry.
    apply (parse_result q r h w (binop_result _ _ _ _ _ _ E1) E2 D4).
  - pose proof (pw_is_function fl x y p vx vy _ c H Ax Ay) as Hf. destruct (pw_binop_evaluates _ n x y c fl p vx vy Hx Hy H Ax Ay) as [r [h [E1 [E2 E3]]]].
    exists h. split; [exact E3|]. destruct (C40_scaling_pointwise q vx vy u v Hf Wx Wy Mx My NS Dx Dy) as [C _].
    destruct (scaled u v) as [w|]; [|congruence]. destruct C as [r' [C1 [C2 _]]]. rewrite E1 in C1. injection C1 as <-. f_equal. symmetry.
    apply (parse_result q r h w (binop_result _ _ _ _ _ _ E1) E2 C2).
  - pose proof (pw_is_function fl x y p vx vy _ c H Ax Ay) as Hf. destruct (pw_binop_evaluates _ n x y c fl p vx vy Hx Hy H Ax Ay) as [r [h [E1 [E2 E3]]]].
    exists h. split; [exact E3|]. destruct (C40_scaling_pointwise q vx vy u v Hf Wx Wy Mx My NS Dx Dy) as [_ C].
    unfold divided. destruct v as [d|d|d]; try congruence. destruct C as [r' [C1 [C2 _]]]. rewrite E1 in C1. injection C1 as <-. f_equal. symmetry.
    apply (parse_result q r h _ (binop_result _ _ _ _ _ _ E1) E2 C2).
Qed.
Print Assumptions C45_arithmetic_values.

(** The result has a piece exactly where both operands have one. *)
Theorem C45_arithmetic_domain n x y c fl p : operand_ok n x -> operand_ok n y ->
  pw_add x y = Ok c \/ pw_sub x y = Ok c \/ pw_mul x y = Ok c \/ pw_truediv x y = Ok c \/ pw_matmul x y = Ok c ->
  ((exists h, get_piece fl c p = Ok h) <-> (exists v, operand_at fl x p v) /\ (exists v, operand_at fl y p v)).
Proof.
  intros Hx Hy H. assert (G : exists op, pw_binop op x y = Ok c) by (unfold pw_add, pw_sub, pw_mul, pw_truediv, pw_matmul in H; intuition eauto).
  clear H. destruct G as [op H]. split.
  - intros [h Hh]. destruct x as [a|v], y as [b|w]; simpl in H; try discriminate.
    + destruct Hx as [Ha [_ Ta]], Hy as [_ [_ Tb]].
      destruct (proj1 (pw_zip_evaluates op a b c fl p h Ha ltac:(congruence) H) Hh) as [f [g [E1 [E2 _]]]]. simpl. split; eauto.
    + destruct Hx as [Ha _]. rewrite (pw_map_evaluates _ a c fl p Ha H) in Hh. destruct (get_piece fl a p) eqn:E; [|discriminate]. simpl. rewrite E. split; eauto.
    + destruct Hy as [Ha _]. rewrite (pw_map_evaluates _ b c fl p Ha H) in Hh. destruct (get_piece fl b p) eqn:E; [|discriminate]. simpl. rewrite E. split; eauto.
  - intros [[v Av] [w Aw]]. destruct (pw_binop_evaluates op n x y c fl p v w Hx Hy H Av Aw) as [r [h [_ [_ E]]]]. eauto.
Qed.
Print Assumptions C45_arithmetic_domain.

(** Pieces on different cells are never combined. *)
Theorem C45_different_cells_rejected op a b i ka fa kb fb :
  nth_error (pw_pieces a) i = Some (ka, fa) -> nth_error (pw_pieces b) i = Some (kb, fb) -> ka <> kb ->
  exists e, pw_binop op (OPw a) (OPw b) = Err e.
Proof.
  intros Ha Hb Hne. unfold pw_binop, pw_zip. destruct (map_res _ (zip (pw_pieces a) (pw_pieces b))) as [items|e] eqn:E; [|eexists; reflexivity].
  exfalso. apply map_res_split in E. assert (Hz : In ((ka, fa), (kb, fb)) (zip (pw_pieces a) (pw_pieces b))).
  { clear - Ha Hb. revert i Ha Hb. generalize (pw_pieces b). induction (pw_pieces a) as [|x l IH]; intros [|y m] [|i] Ha Hb; simpl in *; try discriminate.
    - left. congruence.
    - right. exact (IH m i Ha Hb). }
  clear - E Hz Hne. induction E as [|x y l r H _ IH]; [destruct Hz|]. destruct Hz as [->|Hz]; [|exact (IH Hz)].
  cbn [fst snd] in H. destruct (pts_eq_dec ka kb); [contradiction|discriminate].
Qed.
Print Assumptions C45_different_cells_rejected.

(** Functions with the same cells can be combined when the pieces can, with results of one kind. *)
Theorem C45_binary_operations_succeed op a b : pw_ok a -> map fst (pw_pieces a) = map fst (pw_pieces b) ->
  (forall f g, In f (map snd (pw_pieces a)) -> In g (map snd (pw_pieces b)) -> exists h, op (PFun f) (PFun g) = Ok (PFun h)) ->
  (forall f g h f' g' h', op (PFun f) (PFun g) = Ok (PFun h) -> op (PFun f') (PFun g') = Ok (PFun h') ->
     In f (map snd (pw_pieces a)) -> In g (map snd (pw_pieces b)) -> In f' (map snd (pw_pieces a)) -> In g' (map snd (pw_pieces b)) ->
     same_kind h h' = true) ->
  exists c, pw_binop op (OPw a) (OPw b) = Ok c /\ map fst (pw_pieces c) = map fst (pw_pieces a).
Proof.
  intros [Hne [Hn _]] K Hs Hk. unfold pw_binop, pw_zip.
  assert (F : exists hs, Forall2 (fun ab h => fst (fst ab) = fst (snd ab) /\ op (PFun (snd (fst ab))) (PFun (snd (snd ab))) = Ok (PFun h) /\
    In (snd (fst ab)) (map snd (pw_pieces a)) /\ In (snd (snd ab)) (map snd (pw_pieces b))) (zip (pw_pieces a) (pw_pieces b)) hs /\ length hs = length (pw_pieces a)).
  { assert (G : forall l m, map fst l = map fst m -> (forall x, In x l -> In x (pw_pieces a)) -> (forall x, In x m -> In x (pw_pieces b)) ->
      exists hs, Forall2 (fun ab h => fst (fst ab) = fst (snd ab) /\ op (PFun (snd (fst ab))) (PFun (snd (snd ab))) = Ok (PFun h) /\
        In (snd (fst ab)) (map snd (pw_pieces a)) /\ In (snd (snd ab)) (map snd (pw_pieces b))) (zip l m) hs /\ length hs = length l).
    { induction l as [|[k f] l IH]; intros [|[k' g] m] E Il Im; simpl in E; try discriminate.
      - exists []. split; [constructor|reflexivity].
      - injection E as E1 E2. destruct (IH m E2 (fun x h => Il x (or_intror h)) (fun x h => Im x (or_intror h))) as [hs [H1 H2]].
        assert (If : In f (map snd (pw_pieces a))) by (apply in_map_iff; exists (k, f); split; [reflexivity|apply Il; left; reflexivity]).
        assert (Ig : In g (map snd (pw_pieces b))) by (apply in_map_iff; exists (k', g); split; [reflexivity|apply Im; left; reflexivity]).
        destruct (Hs f g If Ig) as [h Hh]. exists (h :: hs). split; [|simpl; congruence]. constructor; [|exact H1]. auto. }
    apply G; auto. }
  destruct F as [hs [F L]].
  assert (E : map_res (fun ab => if pts_eq_dec (fst (fst ab)) (fst (snd ab))
           then rmap (pair (fst (fst ab))) (op (PFun (snd (fst ab))) (PFun (snd (snd ab)))) else Err AssertionError) (zip (pw_pieces a) (pw_pieces b))
     = Ok (combine (map fst (pw_pieces a)) (map PFun hs))).
  { apply map_res_split.
    assert (G : forall l m hs, map fst l = map fst m -> length hs = length l ->
      Forall2 (fun ab h => fst (fst ab) = fst (snd ab) /\ op (PFun (snd (fst ab))) (PFun (snd (snd ab))) = Ok (PFun h)) (zip l m) hs ->
      Forall2 (fun ab r => (if pts_eq_dec (fst (fst ab)) (fst (snd ab))
         then rmap (pair (fst (fst ab))) (op (PFun (snd (fst ab))) (PFun (snd (snd ab)))) else Err AssertionError) = Ok r)
        (zip l m) (combine (map fst l) (map PFun hs))).
    { clear. induction l as [|[k f] l IH]; intros [|[k' g] m] hs K L F; simpl in K; try discriminate; [constructor|].
      simpl in F. inversion F as [|? h ? hs' [E1 E2] F']; subst. simpl in E1, E2. subst k'. cbn [zip map combine fst snd]. constructor.
      - simpl. destruct (pts_eq_dec k k); [|congruence]. rewrite E2. reflexivity.
      - injection K as K. simpl in L. apply IH; [exact K|congruence|exact F']. }
    apply G; [exact K|exact L|]. clear - F. induction F as [|x y l r [E1 [E2 _]] _ IH]; constructor; auto. }
  rewrite E. cbn [rbind].
  assert (Kc : map fst (combine (map fst (pw_pieces a)) (map PFun hs)) = map fst (pw_pieces a)).
  { assert (L' : length (map fst (pw_pieces a)) = length hs) by (rewrite map_length; congruence). clear - L'. revert hs L'.
    induction (map fst (pw_pieces a)) as [|k l IH]; intros [|h hs] L; try discriminate; [reflexivity|]. simpl. f_equal. apply IH. simpl in L. congruence. }
  eexists. split; [apply make_pw_success with (fs := hs)|].
  - intros E0. rewrite E0 in Kc. destruct (pw_pieces a); [congruence|discriminate].
  - rewrite Kc. exact Hn.
  - assert (L' : length (map fst (pw_pieces a)) = length hs) by (rewrite map_length; congruence). clear - L'. revert hs L'.
    induction (map fst (pw_pieces a)) as [|k l IH]; intros [|h hs] L; try discriminate; simpl; constructor; [reflexivity|]. apply IH. simpl in L. congruence.
  - assert (P : forall h, In h hs -> exists f g, op (PFun f) (PFun g) = Ok (PFun h) /\ In f (map snd (pw_pieces a)) /\ In g (map snd (pw_pieces b))).
    { clear - F. induction F as [|x y l r [_ [E2 [E3 E4]]] _ IH]; intros h Hh; [destruct Hh|]. destruct Hh as [<-|Hh]; eauto 6. }
    intros h h' Hh Hh'. destruct (P h Hh) as [f [g [E1 [E2 E3]]]]. destruct (P h' Hh') as [f' [g' [E4 [E5 E6]]]].
    exact (Hk f g h f' g' h' E1 E4 E2 E3 E5 E6).
  - cbn [pw_pieces]. rewrite Kc.
    assert (L' : length (map fst (pw_pieces a)) = length hs) by (rewrite map_length; congruence). clear - L'. revert hs L'.
    induction (map fst (pw_pieces a)) as [|k l IH]; intros [|h hs] L; try discriminate; [reflexivity|]. simpl. f_equal. apply IH. simpl in L. congruence.
Qed.
Print Assumptions C45_binary_operations_succeed.

Example C45_arithmetic_case : exists c h, pw_add (OPw hat) (OPw hat) = Ok c /\ get_piece false c [3 / 4] = Ok h /\
  forall q, q "x"%string = 3 / 4 -> value_at q h = VS 1.
Proof.
  destruct (C45_binary_operations_succeed py_add hat hat hat_ok eq_refl) as [c [Hc _]].
  - intros f g [<-|[<-|[]]] [<-|[<-|[]]]; eexists; reflexivity.
  - intros f g h f' g' h' H H' Hf Hg Hf' Hg'. simpl in Hf, Hg, Hf', Hg'. intuition (subst; cbn in H, H'; injection H as <-; injection H' as <-; reflexivity).
  - assert (O : operand_ok 1 (OPw hat)) by (split; [exact hat_ok|]; split; [repeat constructor|reflexivity]).
    assert (G : get_piece false hat [3 / 4] = Ok (FS (EAdd (ENum 2) (EMul (ENum (-2)) X)))).
    { apply (proj1 (get_piece_spec 1 hat [3 / 4] eq_refl ltac:(lia) eq_refl hat_regular)).
      exists [([[0]; [1 / 2]], FS (EMul (ENum 2) X))], [[1 / 2]; [1]], []. split; [reflexivity|]. split.
      - apply interval_hull. lra.
      - repeat constructor. simpl. intros Hh. apply hull_interval in Hh; lra. }
    assert (V : forall q, value_of false (OPw hat) [3 / 4] q (VS (2 + -2 * q "x"%string))).
    { intros q. eexists. split; [eexists; split; [exact G|reflexivity]|]. reflexivity. }
    destruct (proj1 (C45_arithmetic_values 1 (OPw hat) (OPw hat) c false [3 / 4] (fun _ => 0) _ _ O O (V _) (V _)) Hc) as [h [E1 _]].
    exists c, h. split; [exact Hc|]. split; [exact E1|]. intros q Hq.
    destruct (proj1 (C45_arithmetic_values 1 (OPw hat) (OPw hat) c false [3 / 4] q _ _ O O (V _) (V _)) Hc) as [h' [E2 E3]].
    assert (h' = h) by congruence. subst. simpl in E3. injection E3 as <-. f_equal. rewrite Hq. lra.
Qed.

(** * Equality and substitution of other variables *)

(** __eq__ compares only as many pieces as the shorter function has: functions that differ at a point (one is
    not even defined there) compare equal. *)
Theorem C45_equality_refuted : exists a b p, pw_ok a /\ pw_ok b /\
  (forall f_eq, (forall f, f_eq f f = true) -> pw_eq f_eq a b = Ok true) /\
  (exists f, get_piece false a p = Ok f) /\ get_piece false b p = Err NotImplementedError.
Proof.
  exists hat, {| pw_pieces := firstn 1 (pw_pieces hat); pw_tdim := 1 |}, [3 / 4]. split; [exact hat_ok|]. split; [|split; [|split]].
  - repeat split; [discriminate|repeat constructor; simpl; tauto|]. intros x y Hx Hy. simpl in Hx, Hy. intuition (subst; reflexivity).
  - intros f_eq Hf. unfold pw_eq. cbn [pw_tdim Nat.eqb pw_pieces hat firstn zip zip_eq fst snd].
    destruct (pts_eq_dec _ _) as [_|E]; [|congruence]. rewrite Hf. reflexivity.
  - eexists. apply (proj1 (get_piece_spec 1 hat [3 / 4] eq_refl ltac:(lia) eq_refl hat_regular)).
    exists [([[0]; [1 / 2]], FS (EMul (ENum 2) X))], [[1 / 2]; [1]], []. split; [reflexivity|]. split.
    + apply interval_hull. lra.
    + repeat constructor. simpl. intros Hh. apply hull_interval in Hh; lra.
  - apply (get_piece_spec 1 _ [3 / 4]); [reflexivity|lia|reflexivity| |].
    + repeat constructor; simpl; unfold co; simpl; lra.
    + intros sf [<-|[]] Hh. simpl in Hh. apply hull_interval in Hh; lra.
Qed.
Print Assumptions C45_equality_refuted.

(** For pieces on the same cells __eq__ is the comparison of all pieces. *)
Theorem C45_equality_partial f_eq a b : map fst (pw_pieces a) = map fst (pw_pieces b) -> pw_tdim a = pw_tdim b ->
  exists r, pw_eq f_eq a b = Ok r /\
    (r = true <-> forall i f g k k', nth_error (pw_pieces a) i = Some (k, f) -> nth_error (pw_pieces b) i = Some (k', g) -> f_eq f g = true).
Proof.
  intros K T. unfold pw_eq. rewrite T, Nat.eqb_refl. revert K. generalize (pw_pieces a) (pw_pieces b). clear.
  induction l as [|[k f] l IH]; intros [|[k' g] m] K; simpl in K; try discriminate.
  - exists true. split; [reflexivity|]. split; [|reflexivity]. intros _ [|i] ? ? ? ? H; discriminate.
  - injection K as -> K. cbn [zip zip_eq fst snd]. destruct (pts_eq_dec k' k') as [_|N]; [|congruence].
    destruct (IH m K) as [r [E1 E2]]. destruct (f_eq f g) eqn:Ef.
    + exists r. split; [exact E1|]. rewrite E2. split.
      * intros H [|i] f0 g0 k0 k1 H1 H2; simpl in *; [congruence|eapply H; eassumption].
      * intros H i f0 g0 k0 k1 H1 H2. apply (H (S i) f0 g0 k0 k1); assumption.
    + exists false. split; [reflexivity|]. split; [discriminate|]. intros H. rewrite <- Ef. apply (H 0%nat f g k' k'); reflexivity.
Qed.
Print Assumptions C45_equality_partial.

(** subs takes constant values for the point even if the variables are not x, y, z: on the hat function,
    substituting 1/4 for t0, which does not occur, gives the function 2x of the first piece instead of the hat
    function. *)
Theorem C45_subs_other_variable_refuted : exists a v r p f, pw_ok a /\ ~ In v x_symbols /\
  pw_subs false a (VarList [v]) (PSeq [PExpr (ENum (1 / 4))]) = Ok (SFun r) /\
  get_piece false a p = Ok f /\ (forall q, q "x"%string = nth 0 p 0 -> value_at q r <> value_at q f) /\
  forall sf, In sf (pw_pieces a) -> forall e, In e (components (snd sf)) -> ~ occurs v e.
Proof.
  exists hat, "t0"%string, (FS (EMul (ENum 2) X)), [3 / 4], (FS (EAdd (ENum 2) (EMul (ENum (-2)) X))).
  split; [exact hat_ok|]. split; [simpl; intuition discriminate|]. split; [|split; [|split]].
  - unfold pw_subs. cbn [as_sympy length pw_tdim hat Nat.eqb constants rbind symbol_free rmap option_map map number].
    assert (G : get_piece false hat [1 / 4] = Ok (FS (EMul (ENum 2) X))).
    { apply (proj1 (get_piece_spec 1 hat [1 / 4] eq_refl ltac:(lia) eq_refl hat_regular)).
      exists [], [[0]; [1 / 2]], [([[1 / 2]; [1]], FS (EAdd (ENum 2) (EMul (ENum (-2)) X)))]. split; [reflexivity|]. split; [|constructor].
      apply interval_hull. lra. }
    rewrite G. reflexivity.
  - apply (proj1 (get_piece_spec 1 hat [3 / 4] eq_refl ltac:(lia) eq_refl hat_regular)).
    exists [([[0]; [1 / 2]], FS (EMul (ENum 2) X))], [[1 / 2]; [1]], []. split; [reflexivity|]. split.
    + apply interval_hull. lra.
    + repeat constructor. simpl. intros Hh. apply hull_interval in Hh; lra.
  - intros q Hq. simpl. simpl in Hq. rewrite Hq. intros H. injection H. lra.
  - intros sf [<-|[<-|[]]] e [<-|[]]; simpl; intuition discriminate.
Qed.
Print Assumptions C45_subs_other_variable_refuted.

(** * Integrals *)

Lemma fold_esubs_values l p : NoDup (map fst l) ->
  (forall s (v : expr), In (s, v) l -> forall s', In s' (map fst l) -> ~ occurs s' v) ->
  exists q, (forall e, ev p (fold_left (fun e (sv : sym * expr) => esubs (fst sv) (snd sv) e) l e) = ev q e) /\
    (forall s, ~ In s (map fst l) -> q s = p s) /\ forall s v, In (s, v) l -> q s = ev p v.
Proof.
  induction l as [|[s v] l IH]; intros Hn Ho.
  - exists p. split; [reflexivity|]. split; [reflexivity|intros s v []].
  - inversion Hn as [|? ? Hs Hn']; subst. simpl in Hs. destruct IH as [q [Hq [Hk Hv]]]; [exact Hn'| |].
    { intros s1 v1 H1 s2 H2. apply (Ho s1 v1); simpl; auto. }
    exists (upd q s (ev q v)). split; [|split].
    + intros e. cbn [fold_left fst snd]. rewrite Hq. apply ev_esubs.
    + intros s' Hs'. simpl in Hs'. rewrite upd_other by tauto. apply Hk. tauto.
    + intros s' v' [E|Hin].
      * injection E as <- <-. unfold upd. rewrite String.eqb_refl. apply ev_ext. intros s' Hs'. apply Hk. intros Hin.
        apply (Ho s v (or_introl eq_refl) s'); [right; exact Hin|exact Hs'].
      * rewrite upd_other; [apply Hv; exact Hin|]. intros ->. apply Hs. apply in_map_iff. exists (s', v'). auto.
Qed.

Lemma nodup_zip {A B} (l : list A) (m : list B) : NoDup l -> NoDup (map fst (zip l m)).
Proof.
  intros N. revert m. induction N as [|s l Hs N IH]; intros [|v m]; simpl; constructor; [|apply IH].
  intros H. apply fst_zip in H. contradiction.
Qed.
Lemma in_zip_nth {A B} (l : list A) (m : list B) i a b : (i < length l)%nat -> (i < length m)%nat -> In (nth i l a, nth i m b) (zip l m).
Proof.
  revert m i. induction l as [|x l IH]; intros [|y m] [|i] Hl Hm; simpl in *; try lia; [left; reflexivity|].
  right. apply IH; lia.
Qed.

(** f.integral(domain) for a function of x, y, z. *)
Lemma integral_placed domain lims j f :
  ReferencesModel.integration_limits (r_type domain) = Ok lims -> ReferencesModel.jacobian domain = Ok j ->
  Forall (fun a => length a = length (r_origin domain)) (r_axes domain) ->
  symbols_in (firstn (length (r_origin domain)) x_symbols) f ->
  exists e, f_integral (FS f) domain = Ok (Integral e lims) /\
    forall p tv, ev (with_t p tv) e = ev (x_point (placed (r_origin domain) (r_axes domain) tv)) f * j.
Proof.
  intros Hl Hj Hf Hs. pose proof (limits_not_point _ _ Hl) as Np.
  assert (P : integral_point domain = Ok (add_columns (fun a ti => EMul (ESym ti) (ENum a)) (r_origin domain) (ReferencesModel.zip_star (r_axes domain)))).
  { unfold integral_point. replace (forallb _ _) with true; [reflexivity|]. symmetry. apply forallb_forall. intros a Ha. apply in_firstn in Ha.
    rewrite Forall_forall in Hf. apply Nat.eqb_eq. exact (Hf a Ha). }
  set (pt := add_columns _ _ _) in P.
  exists (EMul (fold_left (fun e vp => esubs (fst vp) (snd vp) e) (zip x_symbols pt) f) (ENum j)). split.
  { unfold f_integral, integral. rewrite P, Hj. destruct (r_type domain); try contradiction; rewrite Hl; reflexivity. }
  intros p tv. cbn [ev]. f_equal.
  assert (A : Forall (symbols_in t_symbols) pt) by (apply columns_occurs; intros a s s' [H|[]]; exact H).
  destruct (fold_esubs_values (zip x_symbols pt) (with_t p tv)) as [q [Hq [_ Hv]]].
  - apply nodup_zip. repeat constructor; simpl; intuition discriminate.
  - intros s v Hin s' Hs'. rewrite zip_combine in Hin, Hs'. apply in_combine_r in Hin. rewrite Forall_forall in A. intros Ho.
    apply (A v Hin) in Ho. apply in_map_iff in Hs'. destruct Hs' as [[a b] [E H]]. simpl in E. subst. apply in_combine_l in H.
    simpl in Ho, H. intuition (subst; discriminate).
  - rewrite Hq. apply ev_ext. intros s Ho. apply Hs in Ho.
    assert (Pl : map (ev (with_t p tv)) pt = placed (r_origin domain) (r_axes domain) tv).
    { apply columns_placed; [apply with_t_values|intros; simpl; ring|exact (jacobian_axes _ _ Hj)|exact Hf]. }
    assert (Lp : length pt = length (r_origin domain)) by apply length_columns.
    assert (G : forall i, (i < length (r_origin domain))%nat -> (i < 3)%nat -> q (nth i x_symbols ""%string) = nth i (placed (r_origin domain) (r_axes domain) tv) 0).
    { intros i Hi H3. rewrite (Hv (nth i x_symbols ""%string) (nth i pt (ENum 0))).
      - rewrite <- Pl. rewrite (nth_indep _ 0 (ev (with_t p tv) (ENum 0))) by (rewrite map_length; lia). rewrite map_nth. reflexivity.
      - apply in_zip_nth; simpl; lia. }
    destruct (r_origin domain) as [|o0 [|o1 [|o2 os]]]; simpl in Ho.
    + destruct Ho.
    + destruct Ho as [<-|[]]. etransitivity; [exact (G 0%nat ltac:(simpl; lia) ltac:(lia))|reflexivity].
    + destruct Ho as [<-|[<-|[]]]; [etransitivity; [exact (G 0%nat ltac:(simpl; lia) ltac:(lia))|reflexivity]|etransitivity; [exact (G 1%nat ltac:(simpl; lia) ltac:(lia))|reflexivity]].
    + assert (Ho' : In s x_symbols) by (destruct os; simpl in Ho; simpl; tauto). clear Ho. simpl in Ho'.
      destruct Ho' as [<-|[<-|[<-|[]]]]; [etransitivity; [exact (G 0%nat ltac:(simpl; lia) ltac:(lia))|reflexivity]|etransitivity; [exact (G 1%nat ltac:(simpl; lia) ltac:(lia))|reflexivity]|etransitivity; [exact (G 2%nat ltac:(simpl; lia) ltac:(lia))|reflexivity]].
Qed.

(** The value of a term of the sum. *)
Definition outcome_value (o : outcome) (v : R) : Prop :=
  match o with
  | Integral e lims => forall p, integrates lims (fun tv => ev (with_t p tv) e) v
  | Value (FS e) => forall p, ev p e = v
  | _ => False
  end.

(** Functions f_1, f_2, ... on [a, b_1], [b_1, b_2], ..., and the b increase up to 1. *)
Fixpoint pieces_from (a : R) (l : list (R * expr)) : list (list pt * func) :=
  match l with [] => [] | (b, f) :: l' => ([[a]; [b]], FS f) :: pieces_from b l' end.
Fixpoint increasing_to_1 (a : R) (l : list (R * expr)) : Prop :=
  match l with [] => a = 1 | (b, _) :: l' => a < b /\ increasing_to_1 b l' end.

Lemma increasing_le a l : increasing_to_1 a l -> a <= 1.
Proof. revert a. induction l as [|[b f] l IH]; simpl; intros a H; [lra|]. destruct H as [H1 H2]. apply IH in H2. lra. Qed.

Definition interval_cell (a b : R) : reference :=
  {| ReferencesModel.r_type := ReferencesModel.CInterval; ReferencesModel.r_vertices := [[a]; [b]];
     ReferencesModel.r_origin := [a]; ReferencesModel.r_axes := [[b - a]] |}.

Lemma interval_piece a b f : 0 <= a -> a < b -> b <= 1 -> symbols_in ["x"%string] f ->
  exists e, piece_integral 1 (ReferencesModel.default ReferencesModel.CInterval) ([[a]; [b]], FS f) =
      Ok [Integral e [(0%nat, fun _ => 0, fun _ => 1)]] /\
    forall v, outcome_value (Integral e [(0%nat, fun _ => 0, fun _ => 1)]) v <-> is_RInt (fun x => ev (x_point [x]) f) a b v.
Proof.
  intros Ha Hab Hb Hf.
  assert (J : ReferencesModel.jacobian (interval_cell a b) = Ok (b - a)).
  { unfold ReferencesModel.jacobian, interval_cell. simpl. unfold ReferencesModel.fnorm. simpl. f_equal.
    replace (0 + (b - a) * ((b - a) * 1)) with (Rsqr (b - a)) by (unfold Rsqr; ring). apply sqrt_Rsqr. lra. }
  destruct (integral_placed (interval_cell a b) [(0%nat, fun _ => 0, fun _ => 1)] (b - a) f eq_refl J) as [e [E1 E2]].
  { repeat constructor. }
  { intros s Hs. apply Hf in Hs. exact Hs. }
  exists e. split.
  - unfold piece_integral. cbn [fst snd piece_reference ReferencesModel.make_reference rbind].
    assert (I : intersection (interval_cell a b) (ReferencesModel.default ReferencesModel.CInterval) = Ok (Some (interval_cell a b))).
    { assert (C : forall x, 0 <= x <= 1 -> ReferencesModel.contains (ReferencesModel.default ReferencesModel.CInterval) [x] = Ok true).
      { intros x Hx. apply (exact_default ReferencesModel.CInterval I ltac:(discriminate)); [reflexivity|]. apply interval_hull. exact Hx. }
      assert (Dg : ReferencesModel.gdim (ReferencesModel.default ReferencesModel.CInterval) = 1%nat) by reflexivity.
      revert C Dg. generalize (ReferencesModel.default ReferencesModel.CInterval). intros D C Dg.
      unfold intersection, contained_in. rewrite Dg. cbn [ReferencesModel.gdim ReferencesModel.r_origin interval_cell length Nat.eqb negb ReferencesModel.r_vertices all_contained].
      rewrite (C a) by lra. cbn [rbind]. rewrite (C b) by lra. reflexivity. }
    match goal with |- context [intersection ?r _] => change r with (interval_cell a b) end. rewrite I. cbn [rbind]. rewrite E1. reflexivity.
  - intros v. cbn [outcome_value].
    assert (V : forall p tv, ev (with_t p tv) e = ev (x_point [a + tv 0%nat * (b - a)]) f * (b - a)).
    { intros p tv. rewrite E2. cbn [interval_cell ReferencesModel.r_origin ReferencesModel.r_axes]. f_equal. f_equal. unfold placed. simpl.
      f_equal. f_equal. ring. }
    split.
    + intros H. specialize (H (fun _ => 0)). destruct H as [G [HG Hv]]. simpl in Hv. specialize (HG (fun _ => 0)). rewrite Hv in HG.
      cbv beta in HG.
      assert (K : is_RInt (fun s => ev (x_point [a + s * (b - a)]) f * (b - a)) 0 1 v).
      { apply is_RInt_ext with (2 := HG). intros s _. rewrite V. reflexivity. }
      assert (K' : is_RInt (fun s => ev (x_point [a + s * (b - a)]) f * (b - a)) (/ (b - a) * a + - a / (b - a)) (/ (b - a) * b + - a / (b - a)) v).
      { replace (/ (b - a) * a + - a / (b - a)) with 0 by (field; lra). replace (/ (b - a) * b + - a / (b - a)) with 1 by (field; lra). exact K. }
      apply (is_RInt_comp_lin _ (/ (b - a)) (- a / (b - a)) a b v) in K'.
      apply is_RInt_ext with (2 := K'). intros y _. unfold scal; simpl; unfold mult; simpl.
      replace (a + (/ (b - a) * y + - a / (b - a)) * (b - a)) with y by (field; lra). field. lra.
    + intros H p. exists (fun _ => v). split; [|intros e0; reflexivity]. intros e0.
      assert (K' : is_RInt (fun x => ev (x_point [x]) f) ((b - a) * 0 + a) ((b - a) * 1 + a) v).
      { replace ((b - a) * 0 + a) with a by ring. replace ((b - a) * 1 + a) with b by ring. exact H. }
      apply (is_RInt_comp_lin _ (b - a) a 0 1 v) in K'. apply is_RInt_ext with (2 := K'). intros y _. unfold scal; simpl; unfold mult; simpl.
      rewrite V. simpl. replace (a + y * (b - a)) with ((b - a) * y + a) by ring. ring.
Qed.

Lemma interval_regular a l : increasing_to_1 a l -> Forall (fun sf => regular 1 (fst sf)) (pieces_from a l).
Proof.
  revert a. induction l as [|[b f] l IH]; simpl; intros a H; constructor; [|apply IH; tauto].
  simpl. split; [split; [reflexivity|repeat constructor]|]. unfold co. simpl. lra.
Qed.

Lemma interval_sum a l : 0 <= a -> increasing_to_1 a l -> Forall (fun bf => symbols_in ["x"%string] (snd bf)) l ->
  exists outs, map_res (piece_integral 1 (ReferencesModel.default ReferencesModel.CInterval)) (pieces_from a l) = Ok outs /\
    (forall vs, Forall2 outcome_value (concat outs) vs -> forall u,
       (forall x, a < x < 1 -> exists e, first_at (pieces_from a l) [x] (FS e) /\ u x = ev (x_point [x]) e) ->
       is_RInt u a 1 (sumR vs)) /\
    (Forall (fun bf => polynomial (snd bf)) l -> exists vs, Forall2 outcome_value (concat outs) vs).
Proof.
  revert a. induction l as [|[b f] l IH]; intros a Ha Hi Hs.
  - exists []. split; [reflexivity|]. split; [|intros _; exists []; constructor]. simpl in Hi. subst a. intros vs Hv u _. inversion Hv; subst. change (sumR []) with (@zero R_NormedModule). apply is_RInt_point.
  - simpl in Hi. destruct Hi as [Hab Hi]. inversion_clear Hs as [|? ? Hf Hl]. simpl in Hf. pose proof (increasing_le b l Hi) as Hb.
    destruct (interval_piece a b f Ha Hab Hb Hf) as [e [E1 E2]]. destruct (IH b ltac:(lra) Hi Hl) as [outs [I1 [I2 I3]]].
    exists ([Integral e [(0%nat, fun _ => 0, fun _ => 1)]] :: outs). split; [|split].
    + cbn [pieces_from map_res]. rewrite E1. cbn [rbind]. rewrite I1. reflexivity.
    + intros vs Hv u Hu. cbn [concat app] in Hv. inversion Hv as [|? v ? vs' V1 V2]; subst. unfold sumR. simpl.
      apply (is_RInt_Chasles u a b 1 v (sumR vs')).
      * apply E2 in V1. apply is_RInt_ext with (2 := V1). intros x Hx. rewrite Rmin_left, Rmax_right in Hx by lra.
        destruct (Hu x ltac:(lra)) as [g [[bf [c [af [D1 [D2 D3]]]]] ->]]. destruct bf as [|y bf]; simpl in D1; injection D1 as D1 D1'.
        -- congruence.
        -- subst y. inversion D3 as [|? ? D _]; subst. destruct D. simpl. apply interval_hull. lra.
      * apply I2; [exact V2|]. intros x Hx. destruct (Hu x ltac:(lra)) as [g [[bf [c [af [D1 [D2 D3]]]]] Hg]]. exists g. split; [|exact Hg].
        destruct bf as [|y bf]; simpl in D1; injection D1 as D1 D1'.
        -- subst c. apply hull_interval in D2; lra.
        -- inversion D3; subst. exists bf, c, af. auto.
    + intros Hp. inversion_clear Hp as [|? ? Pf Pl]. destruct (I3 Pl) as [vs Hv]. simpl in Pf.
      destruct (poly_integrates (fun i => (i < 1)%nat) [(0%nat, fun _ => 0, fun _ => 1)] (fun tv => ev (x_point [a + tv 0%nat * (b - a)]) f * (b - a))) as [v Hv'].
      { apply (good_cell_limits ReferencesModel.CInterval). reflexivity. }
      { apply poly_mul; [|apply poly_const]. apply (poly_in_expr _ f (fun tv => x_point [a + tv 0%nat * (b - a)]) Pf). intros s Hx. apply Hf in Hx.
        destruct Hx as [<-|[]]. apply (poly_ext _ (fun tv => a + tv 0%nat * (b - a))); [reflexivity|].
        apply poly_add; [apply poly_const|]. apply poly_mul; [apply poly_var; lia|apply poly_const]. }
      exists (v :: vs). cbn [concat app]. constructor; [|exact Hv]. apply E2. destruct Hv' as [G [HG Hv']]. simpl in Hv'. specialize (HG (fun _ => 0)). rewrite Hv' in HG.
      cbv beta in HG. simpl in HG.
      assert (K' : is_RInt (fun s => ev (x_point [a + s * (b - a)]) f * (b - a)) (/ (b - a) * a + - a / (b - a)) (/ (b - a) * b + - a / (b - a)) v).
      { replace (/ (b - a) * a + - a / (b - a)) with 0 by (field; lra). replace (/ (b - a) * b + - a / (b - a)) with 1 by (field; lra). exact HG. }
      apply (is_RInt_comp_lin _ (/ (b - a)) (- a / (b - a)) a b v) in K'.
      apply is_RInt_ext with (2 := K'). intros y _. unfold scal; simpl; unfold mult; simpl.
      replace (a + (/ (b - a) * y + - a / (b - a)) * (b - a)) with y by (field; lra). field. lra.
Qed.

(** The integral over the reference interval of a function given by pieces on consecutive sub-intervals is the
    integral of the function that evaluation defines; for polynomial pieces it exists. *)
Theorem C45_integral_interval l a u : increasing_to_1 0 l -> Forall (fun bf => symbols_in ["x"%string] (snd bf)) l ->
  pw_pieces a = pieces_from 0 l -> pw_tdim a = 1%nat ->
  (forall x, 0 < x < 1 -> exists e, get_piece false a [x] = Ok (FS e) /\ u x = ev (x_point [x]) e) ->
  exists outs, pw_integral a (ReferencesModel.default ReferencesModel.CInterval) = Ok outs /\
    (forall vs, Forall2 outcome_value outs vs -> is_RInt u 0 1 (sumR vs)) /\
    (Forall (fun bf => polynomial (snd bf)) l -> exists vs, Forall2 outcome_value outs vs).
Proof.
  intros Hi Hs Hp Ht Hu. destruct (interval_sum 0 l ltac:(lra) Hi Hs) as [outs [E1 [E2 E3]]].
  exists (concat outs). split; [|split; [|exact E3]].
  - unfold pw_integral. rewrite Ht, Hp, E1. reflexivity.
  - intros vs Hv. apply (E2 vs Hv). intros x Hx. destruct (Hu x Hx) as [e [G1 G2]]. exists e. split; [|exact G2].
    apply (get_piece_spec 1 a [x] Ht ltac:(lia) eq_refl) in G1; [rewrite <- Hp; exact G1|]. rewrite Hp. apply interval_regular. exact Hi.
Qed.
Print Assumptions C45_integral_interval.

(** The integral of the hat function is 1/2. *)
Definition hat_fun (x : R) : R := if Rle_dec x (1 / 2) then 2 * x else 2 + -2 * x.
Example C45_integral_case : exists outs vs, pw_integral hat (ReferencesModel.default ReferencesModel.CInterval) = Ok outs /\
  Forall2 outcome_value outs vs /\ is_RInt hat_fun 0 1 (sumR vs).
Proof.
  destruct (C45_integral_interval [(1 / 2, EMul (ENum 2) X); (1, EAdd (ENum 2) (EMul (ENum (-2)) X))] hat hat_fun) as [outs [E1 [E2 E3]]].
  - simpl. lra.
  - apply Forall_cons; [|apply Forall_cons; [|constructor]]; intros s Hs; simpl in Hs; simpl; intuition.
  - reflexivity.
  - reflexivity.
  - intros x Hx. unfold hat_fun. destruct (Rle_dec x (1 / 2)) as [H|H].
    + exists (EMul (ENum 2) X). split; [|reflexivity]. apply (proj1 (get_piece_spec 1 hat [x] eq_refl ltac:(lia) eq_refl hat_regular)).
      exists [], [[0]; [1 / 2]], [([[1 / 2]; [1]], FS (EAdd (ENum 2) (EMul (ENum (-2)) X)))]. split; [reflexivity|]. split; [|constructor].
      apply interval_hull. lra.
    + exists (EAdd (ENum 2) (EMul (ENum (-2)) X)). split; [|reflexivity]. apply (proj1 (get_piece_spec 1 hat [x] eq_refl ltac:(lia) eq_refl hat_regular)).
      exists [([[0]; [1 / 2]], FS (EMul (ENum 2) X))], [[1 / 2]; [1]], []. split; [reflexivity|]. split.
      * apply interval_hull. lra.
      * repeat constructor. simpl. intros Hh. apply hull_interval in Hh; lra.
  - destruct E3 as [vs Hv]; [repeat constructor|]. exists outs, vs. split; [exact E1|]. split; [exact Hv|exact (E2 vs Hv)].
Qed.

(** In the plane, with triangular cells: every piece contributes nothing if its cell and the domain have no
    common interior point, and otherwise its integral over a cell that is the common part of its cell and the
    domain.  Partial: when the two overlap without one containing the other the code raises an exception. *)
Theorem C45_integral_triangles_partial a D outs :
  pw_tdim a = 2%nat -> Forall (fun sf => points 3 2 (fst sf) /\ edge_det2 (fst sf) 1 2 <> 0) (pw_pieces a) ->
  cell_points D -> exact_membership D -> pw_integral a D = Ok outs ->
  exists contributions, outs = concat contributions /\
    Forall2 (fun sf os =>
      (os = [] /\ forall x, length x = 2%nat -> ~ (in_interior (fst sf) x /\ in_interior (ReferencesModel.r_vertices D) x)) \/
      (exists d o, os = [o] /\ f_integral (snd sf) d = Ok o /\
         forall x, length x = 2%nat ->
           (in_hull (ReferencesModel.r_vertices d) x <-> in_hull (fst sf) x /\ in_hull (ReferencesModel.r_vertices D) x)))
      (pw_pieces a) contributions.
Proof.
  intros T Hr HD MD H. unfold pw_integral in H. destruct (map_res _ _) as [oss|] eqn:E in H; [|discriminate]. injection H as <-.
  exists oss. split; [reflexivity|]. apply map_res_split in E. rewrite T in E. revert Hr. clear T.
  induction E as [|[vs f] os l r0 H _ IH]; intros Hr; [constructor|]. inversion_clear Hr as [|? ? [Hp Hd] Hl].
  constructor; [|apply IH; exact Hl]. clear IH Hl. simpl in Hp, Hd. unfold piece_integral in H. cbn [fst snd piece_reference] in *.
  pose proof (proj1 Hp) as L. change pt with (list R) in *. rewrite L in H.
  destruct (ReferencesModel.make_reference ReferencesModel.CTriangle vs) as [ref|] eqn:Er; [|discriminate]. cbn [rbind] in H.
  destruct (exact_triangle vs ref Hp Hd Er) as [Hc Hm].
  assert (V : ReferencesModel.r_vertices ref = vs /\ ReferencesModel.gdim ref = 2%nat).
  { destruct Hp as [_ F]. destruct vs as [|v0 [|v1 [|v2 [|]]]]; try discriminate. cbn in Er. injection Er as <-. split; [reflexivity|].
    inversion F; subst. assumption. }
  destruct V as [V G]. destruct (intersection ref D) as [[d|]|] eqn:Ei; [| |discriminate]; cbn [rbind] in H.
  - right. destruct (f_integral f d) as [o|] eqn:Ef; [|discriminate]. injection H as <-. exists d, o. split; [reflexivity|]. split; [exact Ef|].
    intros y Hy. destruct (C67_some_is_the_intersection_partial ref D d Hc HD Hm MD Ei) as [_ K]. rewrite <- V. apply K. congruence.
  - left. injection H as <-. split; [reflexivity|]. intros y Hy. rewrite <- V. apply (C67_none_means_disjoint ref D y Hc HD); [congruence|exact Ei].
Qed.
Print Assumptions C45_integral_triangles_partial.

(** Two disjoint triangles; the integral over the second one takes only its piece. *)
Example C45_integral_triangles_case : exists outs,
  pw_integral {| pw_pieces := [(ReferencesModel.r_vertices inner_triangle, FS X); (ReferencesModel.r_vertices next_triangle, FS (ENum 1))]; pw_tdim := 2 |}
    next_triangle = Ok outs /\ length outs = 1%nat /\ cell_points next_triangle /\ exact_membership next_triangle.
Proof.
  destruct next_exact as [HD MD].
  assert (V : forall k, (k < 3)%nat -> ReferencesModel.contains next_triangle (nth k [[1; 0]; [1; 1]; [0; 1]] []) = Ok true).
  { intros k Hk. apply MD; [destruct k as [|[|[|]]]; try lia; reflexivity|]. exists (map (fun i => if Nat.eqb i k then 1 else 0) (seq 0 3)).
    split; [split; [reflexivity|split]|].
    - destruct k as [|[|[|]]]; try lia; unfold sumR; simpl; ring.
    - intros j Hj. destruct k as [|[|[|]]]; try lia; destruct j as [|[|]]; simpl in Hj; try lia; unfold sumR; simpl; ring.
    - apply Forall_forall. intros w Hw. apply in_map_iff in Hw. destruct Hw as [i [<- _]]. destruct (Nat.eqb i k); lra. }
  assert (I1 : intersection next_triangle next_triangle = Ok (Some next_triangle)).
  { assert (Vs : ReferencesModel.r_vertices next_triangle = [[1; 0]; [1; 1]; [0; 1]]) by reflexivity. revert V Vs. generalize next_triangle. intros n V Vs.
    unfold intersection, contained_in. rewrite Nat.eqb_refl, Vs. cbn [negb all_contained].
    pose proof (V 0%nat ltac:(lia)) as V0. pose proof (V 1%nat ltac:(lia)) as V1. pose proof (V 2%nat ltac:(lia)) as V2. cbn [nth] in V0, V1, V2.
    rewrite V0. cbn [rbind]. rewrite V1. cbn [rbind]. rewrite V2. reflexivity. }
  eexists. split; [|split; [|split; [exact HD|exact MD]]].
  - unfold pw_integral. cbn [pw_tdim pw_pieces map_res]. unfold piece_integral at 1. cbn [fst snd].
    change (piece_reference 2 (ReferencesModel.r_vertices inner_triangle)) with (@Ok reference inner_triangle). cbn [rbind].
    rewrite C67_none_example. cbn [rbind]. unfold piece_integral. cbn [fst snd].
    change (piece_reference 2 (ReferencesModel.r_vertices next_triangle)) with (@Ok reference next_triangle). cbn [rbind].
    rewrite I1. cbn [rbind]. reflexivity.
  - reflexivity.
Qed.

(** Tetrahedra: a piece whose cell is outside the domain contributes its whole integral, here 1/6. *)
Theorem C45_integral_tetrahedra_refuted : exists a cell f D outs, pw_ok a /\ pw_tdim a = 3%nat /\ pw_pieces a = [(cell, FS f)] /\
  points 4 3 cell /\ edge_det3 cell 1 2 3 <> 0 /\
  (forall x, length x = 3%nat -> ~ (in_interior cell x /\ in_interior (ReferencesModel.r_vertices D) x)) /\
  pw_integral a D = Ok outs /\ Forall2 outcome_value outs [1 / 6].
Proof.
  destruct C67_tetrahedra_refuted as [r1 [r2 [R1 [R2 [Hi Hx]]]]].
  set (cell := [[0; 0; 0]; [1; 0; 0]; [0; 1; 0]; [0; 0; -1]]) in *.
  pose proof R1 as R1'. unfold ReferencesModel.make_reference, cell in R1'. injection R1' as E1.
  assert (J : ReferencesModel.jacobian r1 = Ok 1).
  { rewrite <- E1. unfold ReferencesModel.jacobian. simpl. unfold ReferencesModel.fdot. simpl. f_equal. transitivity (Rabs (-1)); [f_equal; ring|rewrite Rabs_left; lra]. }
  assert (V : ReferencesModel.r_vertices r1 = cell) by (rewrite <- E1; reflexivity).
  assert (Ax : Forall (fun a => length a = length (r_origin r1)) (r_axes r1)) by (rewrite <- E1; repeat constructor).
  destruct (integral_placed r1 [(0%nat, fun _ => 0, fun e => 1 - e 1%nat - e 2%nat); (1%nat, fun _ => 0, fun e => 1 - e 2%nat); (2%nat, fun _ => 0, fun _ => 1)]
     1 (ENum 1)) as [e [Ee Ev]]; [rewrite <- E1; reflexivity|exact J|exact Ax|intros s []|].
  exists {| pw_pieces := [(cell, FS (ENum 1))]; pw_tdim := 3 |}, cell, (ENum 1), r2. eexists.
  split; [|split; [reflexivity|split; [reflexivity|split; [|split; [|split; [|split]]]]]].
  - repeat split; [discriminate|repeat constructor; simpl; tauto|]. intros x y Hx' Hy. simpl in Hx', Hy. intuition (subst; reflexivity).
  - split; [reflexivity|repeat constructor].
  - unfold edge_det3, co, cell. simpl. lra.
  - intros x Lx. rewrite <- V. apply Hx. exact Lx.
  - unfold pw_integral. cbn [pw_tdim pw_pieces map_res]. unfold piece_integral. cbn [fst snd].
    change (piece_reference 3 cell) with (ReferencesModel.make_reference ReferencesModel.CTetrahedron cell). rewrite R1. cbn [rbind].
    rewrite Hi. cbn [rbind]. rewrite Ee. reflexivity.
  - constructor; [|constructor]. cbn [outcome_value]. intros p.
    apply integrates_ext with (F := fun _ => 1); [intros tv; rewrite Ev; simpl; ring|].
    exists (fun e => 1 - e 1%nat - e 2%nat). split.
    { intros e0. evar_last; [apply is_RInt_const|]. unfold scal; simpl; unfold mult; simpl. ring. }
    exists (fun e => (1 - e 2%nat) ^ 2 / 2). split.
    { intros e0. simpl. evar_last; [apply (is_RInt_derive (fun s => (1 - e0 2%nat) * s - s ^ 2 / 2))|].
      - intros x _. auto_derive; [exact I|]. field.
      - intros x _. apply (continuous_minus (fun s => 1 - s) (fun _ => e0 2%nat)); [apply (continuous_minus (fun _ => 1) (fun s => s)); [apply continuous_const|apply continuous_id]|apply continuous_const].
      - unfold minus, plus, opp; simpl. field. }
    exists (fun _ => 1 / 6). split; [|intros e0; reflexivity].
    intros e0. simpl. evar_last; [apply (is_RInt_derive (fun s => - (1 - s) ^ 3 / 6))|].
    + intros x _. auto_derive; [exact I|]. field.
    + intros x _. apply (ex_derive_continuous (fun s => (1 - s) * ((1 - s) * 1) / 2)). auto_derive. exact I.
    + unfold minus, plus, opp; simpl. field.
Qed.
Print Assumptions C45_integral_tetrahedra_refuted.

(** * Mapping the cells *)

(** v |-> b + M v in n dimensions. *)
Definition affine_map (n : nat) (M : list (list R)) (b v : list R) : list R :=
  map (fun i => nth i b 0 + sumR (map (fun j => nth j (nth i M []) 0 * nth j v 0) (seq 0 n))) (seq 0 n).

Lemma affine_length n M b v : length (affine_map n M b v) = n.
Proof. unfold affine_map. rewrite map_length, seq_length. reflexivity. Qed.

Lemma affine_nth n M b v i : (i < n)%nat ->
  nth i (affine_map n M b v) 0 = nth i b 0 + sumR (map (fun j => nth j (nth i M []) 0 * nth j v 0) (seq 0 n)).
Proof.
  intros Hi. unfold affine_map. set (F := fun i => _). rewrite (nth_indep _ 0 (F 0%nat)) by (rewrite map_length, seq_length; exact Hi).
  rewrite map_nth, seq_nth by exact Hi. reflexivity.
Qed.

Lemma sumR_swap {A B} (h : A -> B -> R) l m :
  sumR (map (fun a => sumR (map (fun b => h a b) m)) l) = sumR (map (fun b => sumR (map (fun a => h a b) l)) m).
Proof.
  induction l as [|a l IH]; simpl.
  - symmetry. apply sumR_zero. reflexivity.
  - unfold sumR at 1. simpl. fold (sumR (map (fun a => sumR (map (fun b => h a b) m)) l)). rewrite IH, <- sumR_plus. reflexivity.
Qed.

Lemma affine_comb_map n M b w vs p : length p = n -> affine_comb w vs p -> affine_comb w (map (affine_map n M b) vs) (affine_map n M b p).
Proof.
  intros Lp [L [S C]]. split; [rewrite map_length; exact L|]. split; [exact S|]. intros i Hi. rewrite affine_length in Hi. rewrite affine_nth by exact Hi.
  assert (E : forall w vs, length w = length vs -> sumR (map (fun wv => fst wv * nth i (snd wv) 0) (combine w (map (affine_map n M b) vs))) =
    sumR w * nth i b 0 + sumR (map (fun wv => fst wv * sumR (map (fun j => nth j (nth i M []) 0 * nth j (snd wv) 0) (seq 0 n))) (combine w vs))).
  { clear - Hi. induction w as [|a w IH]; intros [|v vs] L; try discriminate; [unfold sumR; simpl; ring|]. simpl. unfold sumR in *. simpl. rewrite IH by (simpl in L; congruence).
    rewrite affine_nth by exact Hi. unfold sumR. ring. }
  rewrite E by exact L. rewrite S, Rmult_1_l. f_equal.
  transitivity (sumR (map (fun j => sumR (map (fun wv => fst wv * (nth j (nth i M []) 0 * nth j (snd wv) 0)) (combine w vs))) (seq 0 n))).
  - apply sumR_ext. intros j Hj. apply in_seq in Hj. rewrite (C j) by lia. rewrite <- sumR_scal. apply sumR_ext. intros [a v] _. simpl. ring.
  - rewrite sumR_swap. apply sumR_ext. intros [a v] _. simpl. rewrite <- sumR_scal. reflexivity.
Qed.

Lemma affine_comb_unique w vs p q : length p = length q -> affine_comb w vs p -> affine_comb w vs q -> p = q.
Proof.
  intros L [_ [_ C]] [_ [_ C']]. apply nth_ext with (d := 0) (d' := 0); [exact L|]. intros j Hj. rewrite C by exact Hj. rewrite C' by lia. reflexivity.
Qed.

Definition injective_on (n : nat) (A : list R -> list R) : Prop :=
  forall v w, length v = n -> length w = n -> A v = A w -> v = w.

Lemma affine_hull n M b vs p : injective_on n (affine_map n M b) -> length p = n ->
  (in_hull (map (affine_map n M b) vs) (affine_map n M b p) <-> in_hull vs p).
Proof.
  intros Hi Lp. split; intros [w [Hc Hw]]; exists w; (split; [|exact Hw]).
  - set (q := map (fun j => sumR (map (fun wv => fst wv * nth j (snd wv) 0) (combine w vs))) (seq 0 n)).
    assert (Lq : length q = n) by (unfold q; rewrite map_length, seq_length; reflexivity).
    assert (Q : affine_comb w vs q).
    { destruct Hc as [L [S _]]. rewrite map_length in L. split; [exact L|]. split; [exact S|]. intros j Hj. rewrite Lq in Hj.
      unfold q. set (F := fun j => _). rewrite (nth_indep _ 0 (F 0%nat)) by (rewrite map_length, seq_length; exact Hj).
      rewrite map_nth, seq_nth by exact Hj. reflexivity. }
    assert (E : p = q); [|rewrite E; exact Q]. apply Hi; [exact Lp|exact Lq|].
    apply (affine_comb_unique w (map (affine_map n M b) vs)); [rewrite !affine_length; reflexivity|exact Hc|apply affine_comb_map; assumption].
  - apply affine_comb_map; assumption.
Qed.

Lemma map_injective n (A : list R -> list R) l m : injective_on n A -> Forall (fun v => length v = n) l -> Forall (fun v => length v = n) m ->
  map A l = map A m -> l = m.
Proof.
  intros Hi. revert m. induction l as [|v l IH]; intros [|w m] Hl Hm E; try discriminate; [reflexivity|].
  inversion_clear Hl. inversion_clear Hm. injection E as E1 E2. f_equal; [apply Hi; assumption|apply IH; assumption].
Qed.

Lemma regular_points n cell : regular n cell -> Forall (fun v => length v = n) cell.
Proof. destruct n as [|[|[|[|n]]]]; simpl; try contradiction; [intros [[_ H] _]; exact H|intros [[[_ H] _]|[[_ H] _]]; exact H|intros [[_ H] _]; exact H]. Qed.

(** The function whose cells are moved by an injective affine map has at the image of a point the piece of that
    point (and no piece where there was none). *)
Theorem C45_map_pieces n M b a p : pw_ok a -> pw_tdim a = n -> (1 <= n <= 3)%nat -> length p = n ->
  injective_on n (affine_map n M b) ->
  Forall (fun sf => regular n (fst sf) /\ regular n (map (affine_map n M b) (fst sf))) (pw_pieces a) ->
  pw_ok (map_pieces a (affine_map n M b)) /\
  get_piece false (map_pieces a (affine_map n M b)) (affine_map n M b p) = get_piece false a p.
Proof.
  intros [Hne [Hn Hk]] T Hr Lp Hi Hc.
  assert (N : NoDup (map fst (map (fun sf => (map (affine_map n M b) (fst sf), snd sf)) (pw_pieces a)))).
  { rewrite map_map. simpl. rewrite <- map_map with (f := fst) (g := map (affine_map n M b)). clear - Hn Hc Hi.
    induction (pw_pieces a) as [|[k f] l IH]; simpl in *; constructor; inversion_clear Hn as [|? ? Nk Nl]; inversion_clear Hc as [|? ? [R1 _] R2].
    - intros Hin. apply in_map_iff in Hin. destruct Hin as [k' [E Hin]]. assert (Ek : k' = k); [|subst k'; exact (Nk Hin)].
      apply in_map_iff in Hin. destruct Hin as [[k2 f2] [E2 Hin]]. simpl in E2. subst k2. rewrite Forall_forall in R2. destruct (R2 _ Hin) as [R3 _].
      apply (map_injective n (affine_map n M b)); [exact Hi|apply regular_points; exact R3|apply regular_points; exact R1|exact E].
    - apply IH; assumption. }
  assert (P : pw_pieces (map_pieces a (affine_map n M b)) = map (fun sf => (map (affine_map n M b) (fst sf), snd sf)) (pw_pieces a)).
  { unfold map_pieces. cbn [pw_pieces]. apply dict_of_nodup. exact N. }
  split.
  - split; [rewrite P; destruct (pw_pieces a); [congruence|discriminate]|]. split; [rewrite P; exact N|].
    rewrite P. intros x y Hx Hy. apply in_map_iff in Hx, Hy. destruct Hx as [x' [<- Hx]], Hy as [y' [<- Hy]]. simpl. apply Hk; assumption.
  - assert (G : first_piece false n (affine_map n M b p) (map (fun sf => (map (affine_map n M b) (fst sf), snd sf)) (pw_pieces a)) = first_piece false n p (pw_pieces a)).
    { clear - Hi Lp Hc. induction (pw_pieces a) as [|[k f] l IH]; [reflexivity|]. inversion_clear Hc as [|? ? [R1 R1'] R2]. simpl in R1, R1'. cbn [map first_piece fst snd].
      destruct (in_cell_decides n p k Lp R1) as [b1 [E1 H1]].
      destruct (in_cell_decides n (affine_map n M b p) _ (affine_length n M b p) R1') as [b2 [E2 H2]].
      rewrite E1, E2. cbn [rbind].
      assert (b1 = b2).
      { pose proof (affine_hull n M b k p Hi Lp) as Hh. destruct b1, b2; try reflexivity.
        - symmetry. apply H2, Hh, H1. reflexivity.
        - apply H1, Hh, H2. reflexivity. }
      subst. destruct b2; [reflexivity|apply IH; exact R2]. }
    unfold get_piece. rewrite P. unfold map_pieces. cbn [pw_tdim]. rewrite T. destruct n as [|[|[|[|n]]]]; try lia; exact G.
Qed.
Print Assumptions C45_map_pieces.

(** The hat function moved by x |-> 3 + 2x. *)
Example C45_map_case : get_piece false (map_pieces hat (affine_map 1 [[2]] [3])) [3 + 2 * (3 / 4)] = get_piece false hat [3 / 4].
Proof.
  destruct (C45_map_pieces 1 [[2]] [3] hat [3 / 4] hat_ok eq_refl ltac:(lia) eq_refl) as [_ H].
  - intros [|v [|]] [|w [|]] Hv Hw H; try discriminate. unfold affine_map, sumR in H. simpl in H. injection H as H. f_equal. lra.
  - apply Forall_cons; [|apply Forall_cons; [|constructor]]; simpl; unfold affine_map, co, sumR; simpl;
      (split; [split; [split; [reflexivity|repeat constructor]|lra]|split; [split; [reflexivity|repeat constructor]|lra]]).
  - rewrite <- H. f_equal. unfold affine_map, sumR. simpl. f_equal. ring.
Qed.

(** * The constructor *)

Lemma dict_set_in {V} (d : list (list pt * V)) k v : NoDup (map fst d) -> forall x w, In (x, w) (dict_set d k v) <-> (x = k /\ w = v) \/ (x <> k /\ In (x, w) d).
Proof.
  induction d as [|[k' v'] d IH]; simpl; intros H x w.
  - split; [intros [E|[]]; injection E as -> ->; auto|]. intros [[-> ->]|[_ []]]. auto.
  - inversion H as [|? ? Hn Hd]; subst. destruct (pts_eq_dec k' k) as [->|E]; simpl.
    + split.
      * intros [Hq|Hq]; [injection Hq as -> ->; auto|]. right. split; [|auto]. intros ->. apply Hn. apply (in_map fst _ _ Hq).
      * intros [[-> ->]|[N [Hq|Hq]]]; [auto| |auto]. injection Hq as -> ->. contradiction.
    + rewrite (IH Hd). split.
      * intros [Hq|[Hq|[N Hq]]]; [injection Hq as -> ->; auto|auto|auto].
      * intros [Hq|[N [Hq|Hq]]]; auto.
Qed.
Lemma dict_of_in {V} (items : list (list pt * V)) x w : In (x, w) (dict_of items) <-> exists pre post, items = (pre ++ (x, w) :: post)%list /\ ~ In x (map fst post).
Proof.
  induction items as [|[k v] items IH] using rev_ind.
  - split; [intros []|]. intros ([|] & post & E & _); discriminate.
  - assert (U : dict_of (items ++ [(k, v)]) = dict_set (dict_of items) k v) by (unfold dict_of; rewrite fold_left_app; reflexivity).
    rewrite U, dict_set_in by apply dict_of_keys. split.
    + intros [[-> ->]|[N Hq]]; [exists items, []; split; [reflexivity|auto]|]. apply IH in Hq. destruct Hq as (pre & post & -> & Np).
      exists pre, (post ++ [(k, v)])%list. split; [rewrite <- app_assoc; reflexivity|]. rewrite map_app. intros Y. apply in_app_or in Y. simpl in Y. intuition congruence.
    + intros (pre & post & E & Np). destruct post as [|p post] using rev_ind.
      * apply app_inj_tail in E. destruct E as [_ E]. injection E as -> ->. auto.
      * rewrite app_comm_cons, app_assoc in E. apply app_inj_tail in E. destruct E as [-> <-]. rewrite map_app in Np. right. split.
        -- intros ->. apply Np. apply in_or_app. right. left. reflexivity.
        -- apply IH. exists pre, post. split; [reflexivity|]. intros Y. apply Np. apply in_or_app. left. exact Y.
Qed.

(** A piecewise function has exactly the pieces it was given; where two of the given cells have the same
    vertices the last one counts, as when a dictionary is filled. *)
Theorem C45_constructor_pieces pieces n c : make_pw pieces n = Ok c ->
  forall k f, In (k, f) (pw_pieces c) <->
    exists pre v post, pieces = (pre ++ (k, v) :: post)%list /\ ~ In k (map fst post) /\ parse_function_input v = Ok f.
Proof.
  unfold make_pw. destruct (map_res _ pieces) as [items|] eqn:Em; [|discriminate]. cbn [rbind]. intros H k f.
  assert (E : pw_pieces c = dict_of items).
  { destruct (dict_of items) as [|[k' f'] d]; [discriminate|]. destruct (forallb _ _); [|discriminate]. injection H as <-. reflexivity. }
  rewrite E, dict_of_in. clear E H. apply map_res_split in Em.
  assert (K : forall l r, Forall2 (fun (a : list pt * pyval) b => rmap (pair (fst a)) (parse_function_input (snd a)) = Ok b) l r -> map fst l = map fst r).
  { intros l r F. induction F as [|[a v] [b g] l r Hq _ IH]; [reflexivity|]. simpl in Hq |- *. destruct (parse_function_input v); [|discriminate]. injection Hq as -> _. rewrite IH. reflexivity. }
  split.
  - intros (pre & post & -> & Np). apply Forall2_app_inv_r in Em. destruct Em as (l1 & l2 & F1 & F2 & ->).
    inversion F2 as [|[a v] ? l3 ? Hq F3]; subst. simpl in Hq. destruct (parse_function_input v) as [g|] eqn:Ev; [|discriminate]. simpl in Hq. injection Hq as -> ->.
    exists l1, v, l3. split; [reflexivity|]. split; [rewrite (K _ _ F3); exact Np|exact Ev].
  - intros (pre & v & post & -> & Np & Ev). apply Forall2_app_inv_l in Em. destruct Em as (l1 & l2 & F1 & F2 & ->).
    inversion F2 as [|? [b g] ? l3 Hq F3]; subst. simpl in Hq. rewrite Ev in Hq. simpl in Hq. injection Hq as <- <-.
    exists l1, l3. split; [reflexivity|]. rewrite <- (K _ _ F3). exact Np.
Qed.
Print Assumptions C45_constructor_pieces.
Example C45_constructor_case :
  rmap pw_pieces (make_pw [([[0]; [1]], PFun (FS X)); ([[1]; [2]], PFun (FS (ENum 3))); ([[0]; [1]], PFun (FS (ENum 5)))] 1) =
  Ok [([[0]; [1]], FS (ENum 5)); ([[1]; [2]], FS (ENum 3))].
Proof.
  assert (A : [[0]; [1]] <> [[1]; [2]] :> list pt) by (intros E; injection E; intros; lra).
  unfold make_pw. cbn [map_res rmap rbind parse_function_input fst snd dict_of fold_left dict_set].
  destruct (pts_eq_dec [[0]; [1]] [[1]; [2]]) as [E|_]; [contradiction|]. cbn [dict_set].
  destruct (pts_eq_dec [[0]; [1]] [[0]; [1]]) as [_|E]; [reflexivity|contradiction].
Qed.
