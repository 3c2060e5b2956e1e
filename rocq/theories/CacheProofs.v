(** Proofs about the matrix cache. *)
From Coq Require Import String Ascii ZArith Decimal DecimalString DecimalZ Znumtheory Lia List.
From Verif Require Import Base CacheModel.
Import ListNotations.
Open Scope string_scope.

(** * Characters *)
Fixpoint all_chars (P : ascii -> Prop) (s : string) : Prop :=
  match s with EmptyString => True | String a s' => P a /\ all_chars P s' end.

Lemma all_chars_app P a b : all_chars P (a ++ b) <-> all_chars P a /\ all_chars P b.
Proof. induction a as [|c a IH]; simpl; tauto. Qed.
Lemma all_chars_impl (P Q : ascii -> Prop) s : (forall c, P c -> Q c) -> all_chars P s -> all_chars Q s.
Proof. intros H. induction s as [|c s IH]; simpl; [tauto|]. intros [H1 H2]. split; auto. Qed.

Lemma app_assoc_s (a b c : string) : (a ++ b) ++ c = a ++ (b ++ c).
Proof. induction a as [|x a IH]; simpl; [reflexivity|]. f_equal. exact IH. Qed.
Lemma app_nil_s (a : string) : a ++ "" = a.
Proof. induction a as [|x a IH]; simpl; [reflexivity|]. f_equal. exact IH. Qed.
Lemma length_app_s (a b : string) : String.length (a ++ b) = (String.length a + String.length b)%nat.
Proof. induction a as [|x a IH]; simpl; [reflexivity|]. f_equal. exact IH. Qed.
Lemma app_inj_l a b c : a ++ b = a ++ c -> b = c.
Proof. induction a as [|x a IH]; simpl; [auto|]. intros H. apply IH. congruence. Qed.

(** token followed by a delimiter *)
Lemma token_inj (P : ascii -> Prop) t : forall t' c c' s s',
  all_chars P t -> all_chars P t' -> ~ P c -> ~ P c' ->
  t ++ String c s = t' ++ String c' s' -> t = t' /\ c = c' /\ s = s'.
Proof.
  induction t as [|a t IH]; intros [|a' t'] c c' s s' H H' Hc Hc' E; simpl in *.
  - injection E as -> ->. auto.
  - injection E as -> _. tauto.
  - injection E as -> _. tauto.
  - injection E as -> E. destruct (IH t' c c' s s') as (-> & -> & ->); tauto.
Qed.

Definition not_char (c : ascii) (a : ascii) : Prop := a <> c.

(** * split and join *)
Lemma split_nonnil c s : split c s <> [].
Proof. destruct s as [|a s]; simpl; [discriminate|]. destruct (Ascii.eqb a c); [discriminate|].
  destruct (split c s); discriminate. Qed.

Lemma split_none c s : all_chars (not_char c) s -> split c s = [s].
Proof.
  induction s as [|a s IH]; simpl; [reflexivity|]. intros [Ha Hs].
  destruct (Ascii.eqb_spec a c); [contradiction|]. rewrite IH by exact Hs. reflexivity.
Qed.

Lemma split_app_sep c a b : all_chars (not_char c) a -> split c (a ++ String c b) = a :: split c b.
Proof.
  induction a as [|x a IH]; simpl.
  - intros _. rewrite Ascii.eqb_refl. reflexivity.
  - intros [Hx Ha]. destruct (Ascii.eqb_spec x c); [contradiction|]. rewrite IH by exact Ha. reflexivity.
Qed.

Lemma split_join c l : l <> [] -> Forall (all_chars (not_char c)) l -> split c (join c l) = l.
Proof.
  induction l as [|s l IH]; [congruence|]. intros _ H. apply Forall_cons_iff in H. destruct H as [Hs Hl].
  destruct l as [|s' l].
  - simpl. apply split_none. exact Hs.
  - change (join c (s :: s' :: l)) with (s ++ String c (join c (s' :: l))).
    rewrite split_app_sep by exact Hs. rewrite IH; [reflexivity|discriminate|exact Hl].
Qed.

Lemma all_chars_join (P : ascii -> Prop) c l : P c -> Forall (all_chars P) l -> all_chars P (join c l).
Proof.
  intros Hc. induction l as [|s l IH]; intros H; [exact I|].
  apply Forall_cons_iff in H. destruct H as [Hs Hl].
  destruct l as [|s' l]; [exact Hs|].
  change (join c (s :: s' :: l)) with (s ++ String c (join c (s' :: l))).
  apply all_chars_app. split; [exact Hs|]. split; [exact Hc|]. apply IH. exact Hl.
Qed.

(** Splitting a prefix: all complete fields, then a prefix of the next field. *)
Lemma split_prefix c p : forall q, exists k h t, split c p = (firstn k (split c (p ++ q)%string) ++ [h])%list /\
  nth_error (split c (p ++ q)) k = Some (h ++ t).
Proof.
  induction p as [|a p IH]; intros q; simpl.
  - exists 0%nat, "". destruct (split c q) as [|x l] eqn:E; [destruct (split_nonnil c q E)|].
    exists x. split; reflexivity.
  - destruct (IH q) as (k & h & t & E1 & E2). destruct (Ascii.eqb a c).
    + exists (S k), h, t. simpl. split; [rewrite E1; reflexivity|exact E2].
    + destruct (split c (p ++ q)) as [|x l] eqn:E; [destruct (split_nonnil c _ E)|].
      destruct k as [|k]; simpl in *.
      * rewrite E1. injection E2 as ->. exists 0%nat, (String a h), t. split; reflexivity.
      * exists (S k), h, t. rewrite E1. simpl. split; [reflexivity|exact E2].
Qed.

(** * Printing of numbers *)
Definition digit (a : ascii) : Prop := In a ["0"; "1"; "2"; "3"; "4"; "5"; "6"; "7"; "8"; "9"]%char.
Definition numchar (a : ascii) : Prop := a = "-"%char \/ digit a.
Definition ratchar (a : ascii) : Prop := a = "/"%char \/ numchar a.

Lemma string_of_uint_digits d : all_chars digit (NilEmpty.string_of_uint d).
Proof. unfold digit. induction d; simpl; split || exact I; (exact IHd || (simpl; tauto)). Qed.
Lemma string_of_uint0_digits d : all_chars digit (NilZero.string_of_uint d).
Proof. destruct d; try exact (string_of_uint_digits _). simpl. unfold digit. simpl. tauto. Qed.
Lemma Z_repr_chars z : all_chars numchar (Z_repr z).
Proof.
  unfold Z_repr. destruct (Z.to_int z); simpl.
  - eapply all_chars_impl; [|apply string_of_uint0_digits]. right. assumption.
  - split; [left; reflexivity|]. eapply all_chars_impl; [|apply string_of_uint0_digits]. right. assumption.
Qed.
Lemma rat_repr_chars q : all_chars ratchar (rat_repr q).
Proof.
  unfold rat_repr. assert (H : forall z, all_chars ratchar (Z_repr z)).
  { intros z. eapply all_chars_impl; [|apply Z_repr_chars]. right. assumption. }
  destruct (Pos.eqb _ _); [apply H|]. apply all_chars_app. split; [apply H|].
  simpl. split; [left; reflexivity|apply H].
Qed.

Ltac not_digit := unfold digit in *; simpl in *;
  repeat match goal with H : _ \/ _ |- _ => destruct H end; subst; try discriminate; try contradiction.
Lemma numchar_not c : numchar c -> c <> "/"%char /\ c <> ","%char /\ c <> ";"%char /\ c <> " "%char /\ c <> ")"%char /\ c <> "("%char.
Proof. unfold numchar. intros H. repeat split; intros ->; not_digit. Qed.
Lemma ratchar_not c : ratchar c -> c <> ","%char /\ c <> ";"%char /\ c <> " "%char /\ c <> ")"%char /\ c <> "("%char.
Proof. intros [->|H]; [repeat split; discriminate|]. apply numchar_not in H. tauto. Qed.

Lemma parse_Z_repr z : parse_Z (Z_repr z) = Some z.
Proof.
  unfold parse_Z, Z_repr. rewrite NilZero.isi.
  - simpl. rewrite DecimalZ.of_to. reflexivity.
  - destruct z as [|p|p]; simpl; try discriminate. intros H. injection H as H.
    assert (E : Pos.of_uint (Pos.to_uint p) = Npos p) by apply DecimalPos.Unsigned.of_to.
    rewrite H in E. discriminate.
  - destruct z as [|p|p]; simpl; try discriminate. intros H. injection H as H.
    assert (E : Pos.of_uint (Pos.to_uint p) = Npos p) by apply DecimalPos.Unsigned.of_to.
    rewrite H in E. discriminate.
Qed.

Lemma Z_repr_inj a b : Z_repr a = Z_repr b -> a = b.
Proof. intros H. pose proof (parse_Z_repr a) as H1. rewrite H, parse_Z_repr in H1. congruence. Qed.

Lemma Z_repr_noslash z : all_chars (not_char "/") (Z_repr z).
Proof. eapply all_chars_impl; [|apply Z_repr_chars]. intros c Hc. apply numchar_not in Hc. unfold not_char. tauto. Qed.

Lemma mk_rat_canonical p q : canonical (p, q) -> mk_rat p q = (p, q).
Proof.
  unfold canonical, mk_rat. cbn [fst snd]. intros H.
  pose proof (Z.ggcd_gcd p (Zpos q)) as G. pose proof (Z.ggcd_correct_divisors p (Zpos q)) as D.
  destruct (Z.ggcd p (Zpos q)) as [g [a b]]. simpl in G. subst g. rewrite H in D.
  destruct D as [D1 D2]. rewrite Z.mul_1_l in D1, D2. subst a b. reflexivity.
Qed.

Lemma sympify_repr q : canonical q -> sympify (rat_repr q) = Ok q.
Proof.
  destruct q as [p q]. intros Hc. unfold sympify, rat_repr. simpl fst; simpl snd.
  destruct (Pos.eqb_spec q 1) as [->|Hq].
  - rewrite split_none by apply Z_repr_noslash. rewrite parse_Z_repr. reflexivity.
  - change (Z_repr p ++ "/" ++ Z_repr (Zpos q)) with (Z_repr p ++ String "/" (Z_repr (Zpos q))).
    rewrite split_app_sep by apply Z_repr_noslash. rewrite split_none by apply Z_repr_noslash.
    rewrite !parse_Z_repr. rewrite mk_rat_canonical by exact Hc. reflexivity.
Qed.

Lemma rat_repr_inj a b : rat_repr a = rat_repr b -> a = b.
Proof.
  destruct a as [p q], b as [p' q']. unfold rat_repr. simpl fst; simpl snd. intros H.
  assert (S1 : forall z, split "/" (Z_repr z) = [Z_repr z]) by (intros; apply split_none, Z_repr_noslash).
  assert (S2 : forall z w, split "/" (Z_repr z ++ "/" ++ Z_repr w) = [Z_repr z; Z_repr w]).
  { intros z w. change (Z_repr z ++ "/" ++ Z_repr w) with (Z_repr z ++ String "/" (Z_repr w)).
    rewrite split_app_sep by apply Z_repr_noslash. rewrite S1. reflexivity. }
  apply (f_equal (split "/")) in H.
  destruct (Pos.eqb_spec q 1) as [E|E]; destruct (Pos.eqb_spec q' 1) as [E'|E']; rewrite ?S1, ?S2 in H.
  - injection H as H. apply Z_repr_inj in H. congruence.
  - discriminate.
  - discriminate.
  - injection H as H1 H2. apply Z_repr_inj in H1, H2. congruence.
Qed.

(** * Round trip *)
Definition wf_matrix (m : matrix) : Prop :=
  m <> [] /\ (exists c, (1 <= c)%nat /\ Forall (fun r => length r = c) m) /\ Forall (Forall canonical) m.

Lemma sequence_ok {A B} (f : A -> res B) (g : B -> A) l :
  Forall (fun b => f (g b) = Ok b) l -> sequence (map f (map g l)) = Ok l.
Proof.
  induction l as [|b l IH]; intros H; [reflexivity|]. apply Forall_cons_iff in H. destruct H as [H1 H2].
  simpl. rewrite H1, IH by exact H2. reflexivity.
Qed.

Lemma rat_repr_no c q : (c = ","%char \/ c = ";"%char) -> all_chars (not_char c) (rat_repr q).
Proof.
  intros Hc. eapply all_chars_impl; [|apply rat_repr_chars]. intros a Ha. apply ratchar_not in Ha.
  unfold not_char. destruct Hc as [->| ->]; tauto.
Qed.

Lemma row_parse r : r <> [] -> Forall canonical r ->
  sequence (map sympify (split "," (join "," (map rat_repr r)))) = Ok r.
Proof.
  intros Hr Hc. rewrite split_join.
  - apply sequence_ok. apply Forall_impl with (2 := Hc). intros q. apply sympify_repr.
  - destruct r; [congruence|discriminate].
  - apply Forall_map. apply Forall_forall. intros q _. apply rat_repr_no. auto.
Qed.

Lemma row_no_semicolon r : all_chars (not_char ";") (join "," (map rat_repr r)).
Proof.
  apply all_chars_join; [discriminate|]. apply Forall_map, Forall_forall. intros q _. apply rat_repr_no. auto.
Qed.

Lemma split_matrix m : m <> [] ->
  split ";" (matrix_to_string m) = map (fun r => join "," (map rat_repr r)) m.
Proof.
  intros Hm. unfold matrix_to_string. apply split_join.
  - destruct m; [congruence|discriminate].
  - apply Forall_map, Forall_forall. intros r _. apply row_no_semicolon.
Qed.

Lemma sympy_Matrix_rect c m : Forall (fun r => length r = c) m -> sympy_Matrix m = Ok m.
Proof.
  intros H. unfold sympy_Matrix. destruct m as [|r m]; [reflexivity|].
  pose proof (Forall_inv H) as H0. simpl cols.
  replace (forallb _ _) with true; [reflexivity|]. symmetry. apply forallb_forall.
  intros x Hx. rewrite Forall_forall in H. rewrite (H x Hx), H0. apply Nat.eqb_refl.
Qed.

Lemma round_trip m : wf_matrix m -> matrix_from_string (matrix_to_string m) = Ok m.
Proof.
  intros (Hm & (c & Hc & Hr) & Hcan). unfold matrix_from_string. rewrite split_matrix by exact Hm.
  rewrite (sequence_ok (fun i => sequence (map sympify (split "," i)))).
  - exact (sympy_Matrix_rect c m Hr).
  - apply Forall_forall. intros r Hin. rewrite Forall_forall in Hr, Hcan. apply row_parse; [|auto].
    specialize (Hr r Hin). destruct r; [simpl in Hr; lia|discriminate].
Qed.

Lemma to_string_inj m m' : wf_matrix m -> wf_matrix m' -> matrix_to_string m = matrix_to_string m' -> m = m'.
Proof. intros H H' E. apply round_trip in H, H'. rewrite E, H' in H. congruence. Qed.

(** * The cache as a map *)
Fixpoint last_saved (t i : string) (ops : list op) : option matrix :=   (* newest first *)
  match ops with
  | [] => None
  | Save t' i' m :: rest => if andb (String.eqb t t') (String.eqb i i') then Some m else last_saved t i rest
  | Load _ _ _ :: rest => last_saved t i rest
  end.

Definition fits (size : nat * nat) (o : option matrix) : option matrix :=
  match o with
  | Some m => if andb (Nat.eqb (rows m) (fst size)) (Nat.eqb (cols m) (snd size)) then Some m else None
  | None => None
  end.

Definition op_id (o : op) : string := match o with Save _ i _ => i | Load _ i _ => i end.
Definition op_wf (o : op) : Prop := match o with Save _ _ m => wf_matrix m | Load _ _ _ => True end.

Lemma app_inj_len a b s s' : String.length s = String.length s' -> a ++ s = b ++ s' -> a = b /\ s = s'.
Proof.
  revert b. induction a as [|x a IH]; intros [|y b] Hl E; simpl in *.
  - auto.
  - subst s. simpl in Hl. rewrite length_app_s in Hl. lia.
  - subst s'. simpl in Hl. rewrite length_app_s in Hl. lia.
  - injection E as -> E. destruct (IH b Hl E) as [-> ->]. auto.
Qed.

Lemma filename_inj hash t t' i i' : (forall s, String.length (hash s) = 64%nat) ->
  filename hash t i = filename hash t' i' -> t = t' /\ hash i = hash i'.
Proof.
  intros Hh E. unfold filename in E. apply app_inj_len in E.
  - destruct E as [-> E]. split; [reflexivity|].
    change ("1" ++ "-" ++ hash i ++ ".matrix") with (String "1" (String "-" (hash i ++ ".matrix"))) in E.
    change ("1" ++ "-" ++ hash i' ++ ".matrix") with (String "1" (String "-" (hash i' ++ ".matrix"))) in E.
    injection E as E. apply app_inj_len in E; [tauto|reflexivity].
  - rewrite !length_app_s, !Hh. reflexivity.
Qed.

Lemma run_lookup hash ops : (forall s, String.length (hash s) = 64%nat) ->
  forall t i, (forall o, In o ops -> hash (op_id o) = hash i -> op_id o = i) ->
  run hash ops (filename hash t i) = option_map matrix_to_string (last_saved t i (rev ops)).
Proof.
  intros Hh. unfold run. induction ops as [|o ops IH] using rev_ind; intros t i Hinj; [reflexivity|].
  rewrite fold_left_app, rev_app_distr. simpl.
  assert (IH' := IH t i (fun o' Ho' => Hinj o' (in_or_app _ _ _ (or_introl Ho')))).
  destruct o as [t' i' m|t' i' sz]; simpl; [|exact IH'].
  unfold save_cached_matrix, write.
  destruct (String.eqb_spec (filename hash t i) (filename hash t' i')) as [E|E].
  - apply filename_inj in E; [|exact Hh]. destruct E as [-> E].
    assert (E' : i' = i).
    { apply (Hinj (Save t' i' m)); [apply in_or_app; right; left; reflexivity|]. simpl. congruence. }
    subst i'. rewrite !String.eqb_refl. reflexivity.
  - destruct (String.eqb_spec t t') as [->|]; [|exact IH'].
    destruct (String.eqb_spec i i') as [->|]; [congruence|exact IH'].
Qed.

Lemma last_saved_wf t i ops m : Forall op_wf ops -> last_saved t i ops = Some m -> wf_matrix m.
Proof.
  induction ops as [|o ops IH]; simpl; [discriminate|]. intros H. apply Forall_cons_iff in H.
  destruct H as [Ho H]. destruct o as [t' i' m'|t' i' sz]; [|exact (IH H)].
  destruct (andb _ _); [intros E; injection E as <-; exact Ho|exact (IH H)].
Qed.

Lemma cache_is_map hash ops t i size : (forall s, String.length (hash s) = 64%nat) ->
  (forall o, In o ops -> hash (op_id o) = hash i -> op_id o = i) -> Forall op_wf ops ->
  load_cached_matrix hash (run hash ops) t i size = Ok (fits size (last_saved t i (rev ops))).
Proof.
  intros Hh Hinj Hwf. unfold load_cached_matrix. rewrite run_lookup by assumption.
  destruct (last_saved t i (rev ops)) as [m|] eqn:E; [|reflexivity]. simpl.
  apply last_saved_wf in E; [|apply Forall_rev; exact Hwf]. rewrite round_trip by exact E. simpl.
  destruct (Nat.eqb (rows m) (fst size)), (Nat.eqb (cols m) (snd size)); reflexivity.
Qed.

(** * Crashes *)
Definition entry (m : matrix) (i j : nat) : rat := nth j (nth i m []) (0%Z, 1%positive).

Lemma sequence_length {A} (l : list (res A)) t : sequence l = Ok t -> length t = length l.
Proof.
  revert t. induction l as [|[a|e] l IH]; simpl; intros t H; [injection H as <-; reflexivity| |discriminate].
  destruct (sequence l) as [t'|]; [|discriminate]. injection H as <-. simpl. f_equal. apply IH. reflexivity.
Qed.
Lemma sequence_app {A} (l1 l2 : list (res A)) : sequence (l1 ++ l2)%list =
  match sequence l1 with Ok a => match sequence l2 with Ok b => Ok (a ++ b)%list | Err e => Err e end | Err e => Err e end.
Proof.
  induction l1 as [|[a|e] l1 IH]; simpl; [destruct (sequence l2); reflexivity| |reflexivity].
  rewrite IH. destruct (sequence l1); [|reflexivity]. destruct (sequence l2); reflexivity.
Qed.
Lemma sequence_firstn {A B} (f : A -> res B) (g : B -> A) k l :
  Forall (fun b => f (g b) = Ok b) l -> sequence (map f (firstn k (map g l))) = Ok (firstn k l).
Proof.
  intros H. rewrite firstn_map. apply sequence_ok. apply Forall_forall. intros b Hb.
  rewrite Forall_forall in H. apply H. rewrite <- (firstn_skipn k l). apply in_or_app. auto.
Qed.

Lemma nth_firstn_lt {A} k (l : list A) d : forall j, (j < k)%nat -> nth j (firstn k l) d = nth j l d.
Proof.
  revert l. induction k as [|k IH]; intros [|a l] [|j] H; simpl; try reflexivity; try lia. apply IH. lia.
Qed.

Lemma row_prefix r h t row : r <> [] -> Forall canonical r -> h ++ t = join "," (map rat_repr r) ->
  sequence (map sympify (split "," h)) = Ok row -> length row = length r ->
  forall j, (j < length r - 1)%nat -> nth j row (0%Z, 1%positive) = nth j r (0%Z, 1%positive).
Proof.
  intros Hr Hc E Hs Hl j Hj. destruct (split_prefix "," h t) as (k & h' & t' & E1 & E2).
  assert (Es : split "," (h ++ t) = map rat_repr r).
  { rewrite E. apply split_join; [destruct r; [congruence|discriminate]|].
    apply Forall_map, Forall_forall. intros q _. apply rat_repr_no. auto. }
  rewrite Es in E1, E2. rewrite E1 in Hs. rewrite map_app, sequence_app in Hs.
  rewrite sequence_firstn in Hs by (apply Forall_impl with (2 := Hc); intros q; apply sympify_repr).
  assert (Hk : (k < length r)%nat).
  { rewrite <- (map_length rat_repr). apply nth_error_Some. rewrite E2. discriminate. }
  destruct (sequence (map sympify [h'])) as [b|] eqn:Eb; [|discriminate].
  injection Hs as <-. apply sequence_length in Eb. simpl in Eb. rewrite app_length, Eb in Hl.
  rewrite firstn_length in Hl. rewrite app_nth1 by (rewrite firstn_length; lia).
  assert (k = length r - 1)%nat by lia. subst k.
  apply nth_firstn_lt. lia.
Qed.

Lemma crash_prefix m p q m' : wf_matrix m -> matrix_to_string m = p ++ q ->
  matrix_from_string p = Ok m' -> rows m' = rows m -> cols m' = cols m ->
  forall i j, (i < rows m)%nat -> (j < cols m)%nat -> ~ (i = rows m - 1 /\ j = cols m - 1)%nat ->
  entry m' i j = entry m i j.
Proof.
  intros (Hm & (c & Hc & Hr) & Hcan) E Hp Hrow Hcol i j Hi Hj Hij.
  assert (Hcm : cols m = c). { destruct m as [|r m]; [congruence|]. exact (Forall_inv Hr). }
  destruct (split_prefix ";" p q) as (k & h & t & E1 & E2). rewrite <- E, split_matrix in E1, E2 by exact Hm.
  unfold matrix_from_string in Hp. rewrite E1 in Hp.
  assert (Hrows : Forall (fun r => sequence (map sympify (split "," (join "," (map rat_repr r)))) = Ok r) m).
  { apply Forall_forall. intros r Hin. rewrite Forall_forall in Hr, Hcan. apply row_parse; [|auto].
    specialize (Hr r Hin). destruct r; [simpl in Hr; lia|discriminate]. }
  rewrite map_app, sequence_app in Hp.
  rewrite (sequence_firstn (fun i => sequence (map sympify (split "," i)))) in Hp by exact Hrows.
  cbn [map] in Hp. destruct (sequence (map sympify (split "," h))) as [row|] eqn:Erow; simpl in Hp; [|discriminate].
  unfold sympy_Matrix in Hp. destruct (forallb _ _) eqn:Hrect; [|discriminate]. injection Hp as <-.
  assert (Hk : (k < length m)%nat).
  { rewrite <- (map_length (fun r => join "," (map rat_repr r))). apply nth_error_Some. rewrite E2. discriminate. }
  unfold rows in *. rewrite app_length, firstn_length in Hrow. simpl in Hrow.
  assert (k = length m - 1)%nat by lia. subst k.
  unfold entry. destruct (Nat.lt_ge_cases i (length m - 1)) as [Hlt|Hge].
  - rewrite app_nth1 by (rewrite firstn_length; lia).
    rewrite nth_firstn_lt by lia. reflexivity.
  - assert (i = length m - 1)%nat by lia. subst i.
    rewrite app_nth2 by (rewrite firstn_length; lia). rewrite firstn_length.
    replace (length m - 1 - Nat.min (length m - 1) (length m))%nat with 0%nat by lia. cbn [nth].
    pose proof (nth_error_nth' m [] (n := length m - 1) ltac:(lia)) as En.
    rewrite (map_nth_error _ _ _ En) in E2. injection E2 as E2.
    assert (Hin : In (nth (length m - 1) m []) m) by (apply nth_In; lia).
    rewrite Forall_forall in Hr, Hcan. specialize (Hr _ Hin). specialize (Hcan _ Hin).
    eapply row_prefix; [|exact Hcan|exact (eq_sym E2)|exact Erow| |].
    + destruct (nth (length m - 1) m []); [simpl in Hr; lia|discriminate].
    + rewrite Hr. assert (Hl : In row (firstn (length m - 1) m ++ [row])%list) by (apply in_or_app; right; left; reflexivity).
      rewrite forallb_forall in Hrect. specialize (Hrect row Hl). apply Nat.eqb_eq in Hrect. lia.
    + rewrite Hr. lia.
Qed.

(** * Identifiers *)
Section TupleRepr.
Variable A : Type.
Variable enc : A -> string.
Hypothesis enc_pf : forall a b c c' s s', (c = "," \/ c = ")")%char -> (c' = "," \/ c' = ")")%char ->
  enc a ++ String c s = enc b ++ String c' s' -> a = b /\ String c s = String c' s'.
Hypothesis enc_start : forall a s s', enc a ++ s <> String ")" s'.

Fixpoint tail_repr (l : list A) : string :=
  match l with [] => ")" | b :: l' => ", " ++ enc b ++ tail_repr l' end.

Lemma comma_sep_tail a l : comma_sep (map enc (a :: l)) ++ ")" = enc a ++ tail_repr l.
Proof.
  revert a. induction l as [|b l IH]; intros a; [reflexivity|].
  change (comma_sep (map enc (a :: b :: l))) with (enc a ++ ", " ++ comma_sep (map enc (b :: l))).
  rewrite !app_assoc_s, IH. reflexivity.
Qed.

Lemma tail_start l s : exists c r, (c = "," \/ c = ")")%char /\ tail_repr l ++ s = String c r.
Proof. destruct l as [|b l]; simpl; eexists; eexists; (split; [|reflexivity]); auto. Qed.

Lemma tail_inj l : forall l' s s', tail_repr l ++ s = tail_repr l' ++ s' -> l = l' /\ s = s'.
Proof.
  induction l as [|b l IH]; intros [|b' l'] s s' E.
  - simpl in E. injection E as ->. auto.
  - simpl in E. discriminate.
  - simpl in E. discriminate.
  - simpl in E. rewrite !app_assoc_s in E. injection E as E.
    destruct (tail_start l s) as (c & r & Hc & Er). destruct (tail_start l' s') as (c' & r' & Hc' & Er').
    rewrite Er, Er' in E. apply enc_pf in E; [|assumption..]. destruct E as [-> E].
    rewrite <- Er, <- Er' in E. apply IH in E. destruct E as [-> ->]. auto.
Qed.

Lemma tuple_repr_cons a b l : tuple_repr (map enc (a :: b :: l)) = String "(" (enc a ++ tail_repr (b :: l)).
Proof.
  unfold tuple_repr. rewrite <- comma_sep_tail. reflexivity.
Qed.

Lemma tuple_inj l l' s s' : tuple_repr (map enc l) ++ s = tuple_repr (map enc l') ++ s' -> l = l' /\ s = s'.
Proof.
  destruct l as [|a [|b l]], l' as [|a' [|b' l']]; rewrite ?tuple_repr_cons; simpl; rewrite ?app_assoc_s;
    intros E; injection E as E.
  - auto.
  - symmetry in E. destruct (enc_start _ _ _ E).
  - symmetry in E. destruct (enc_start _ _ _ E).
  - destruct (enc_start _ _ _ E).
  - simpl in E. apply enc_pf in E; [|auto..]. destruct E as [-> E]. injection E as ->. auto.
  - simpl in E. apply enc_pf in E; [|auto..]. destruct E as [_ E]. discriminate.
  - destruct (enc_start _ _ _ E).
  - simpl in E. apply enc_pf in E; [|auto..]. destruct E as [_ E]. discriminate.
  - apply enc_pf in E; [|auto..]. destruct E as [-> E].
    apply (tail_inj (b :: l) (b' :: l')) in E. destruct E as [E ->]. injection E as -> ->. auto.
Qed.
End TupleRepr.

Lemma rat_repr_nonempty q : rat_repr q <> "".
Proof.
  destruct q as [p q]. unfold rat_repr. cbn [fst snd]. intros H.
  assert (HZ : Z_repr p <> ""). { intros E. pose proof (parse_Z_repr p) as E2. rewrite E in E2. discriminate. }
  destruct (Pos.eqb q 1); [contradiction|]. destruct (Z_repr p); [contradiction|discriminate].
Qed.

Lemma rat_pf a b c c' s s' : (c = "," \/ c = ")")%char -> (c' = "," \/ c' = ")")%char ->
  rat_repr a ++ String c s = rat_repr b ++ String c' s' -> a = b /\ String c s = String c' s'.
Proof.
  intros Hc Hc' E. apply (token_inj ratchar) in E.
  - destruct E as (E & -> & ->). apply rat_repr_inj in E. auto.
  - apply rat_repr_chars.
  - apply rat_repr_chars.
  - intros H. apply ratchar_not in H. destruct Hc as [->| ->]; tauto.
  - intros H. apply ratchar_not in H. destruct Hc' as [->| ->]; tauto.
Qed.
Lemma rat_start a s s' : rat_repr a ++ s <> String ")" s'.
Proof.
  pose proof (rat_repr_nonempty a) as H. pose proof (rat_repr_chars a) as H2.
  destruct (rat_repr a) as [|c r]; [congruence|]. simpl. intros E. injection E as -> _.
  destruct H2 as [H2 _]. apply ratchar_not in H2. tauto.
Qed.

Lemma vertices_inj v v' s s' : vertices_repr v ++ s = vertices_repr v' ++ s' -> v = v' /\ s = s'.
Proof.
  unfold vertices_repr. apply tuple_inj.
  - intros a b c c' t t' _ _ E. exact (tuple_inj _ _ rat_pf rat_start a b _ _ E).
  - intros a t t'. destruct a as [|x [|y a]]; discriminate.
Qed.

Lemma last_space a : forall a' b b', all_chars (not_char " ") b -> all_chars (not_char " ") b' ->
  a ++ String " " b = a' ++ String " " b' -> a = a' /\ b = b'.
Proof.
  induction a as [|x a IH]; intros [|x' a'] b b' Hb Hb' E; simpl in E.
  - injection E as ->. auto.
  - injection E as <- ->. apply all_chars_app in Hb. destruct Hb as [_ [H _]]. destruct (H eq_refl).
  - injection E as -> <-. apply all_chars_app in Hb'. destruct Hb' as [_ [H _]]. destruct (H eq_refl).
  - injection E as -> E. destruct (IH a' b b' Hb Hb' E) as [-> ->]. auto.
Qed.

Definition wf_element (e : element) : Prop :=
  all_chars (not_char " ") (e_class e) /\ all_chars (not_char " ") (e_updated e).

Lemma cache_id_inj e e' : wf_element e -> wf_element e' -> cache_id e = cache_id e' -> e = e'.
Proof.
  destruct e as [n o v k u], e' as [n' o' v' k' u']. intros [Hn Hu] [Hn' Hu'] E. unfold cache_id in E. simpl in *.
  apply (token_inj (not_char " ")) in E; [|assumption|assumption|intros H; exact (H eq_refl)..].
  destruct E as (-> & _ & E).
  apply (token_inj numchar) in E; [|apply Z_repr_chars|apply Z_repr_chars|
    intros H; apply numchar_not in H; tauto|intros H; apply numchar_not in H; tauto].
  destruct E as (E1 & _ & E). apply Z_repr_inj in E1. subst o'.
  apply vertices_inj in E. destruct E as [-> E]. injection E as E.
  apply last_space in E; [|assumption..]. destruct E as [-> ->]. reflexivity.
Qed.

Lemma dual_type_inj b b' : dual_type b = dual_type b' -> b = b'.
Proof. destruct b, b'; (reflexivity || discriminate). Qed.

(** * Transparency *)
Section Transparent.
Variable hash : string -> string.
Variable compute : element -> bool -> matrix.
Variable ndofs : element -> nat.
Variable used : element -> Prop.
Hypothesis hash_len : forall s, String.length (hash s) = 64%nat.
Hypothesis hash_inj : forall e e', used e -> used e' -> hash (cache_id e) = hash (cache_id e') -> cache_id e = cache_id e'.
Hypothesis used_wf : forall e, used e -> wf_element e.
Hypothesis compute_wf : forall e b, used e -> wf_matrix (compute e b) /\
  rows (compute e b) = ndofs e /\ cols (compute e b) = ndofs e.

Definition good (f : fs) : Prop := forall e b, used e ->
  f (filename hash (dual_type b) (cache_id e)) = None \/
  f (filename hash (dual_type b) (cache_id e)) = Some (matrix_to_string (compute e b)).

Lemma get_dual_good f e b : good f -> used e ->
  exists f', get_dual_matrix hash compute ndofs f e b = Ok (compute e b, f') /\ good f'.
Proof.
  intros Hf He. unfold get_dual_matrix, load_cached_matrix.
  destruct (compute_wf e b He) as (Hwf & Hr & Hc).
  destruct (Hf e b He) as [E|E]; rewrite E.
  - eexists. split; [reflexivity|]. intros e' b' He'. unfold save_cached_matrix, write.
    destruct (String.eqb_spec (filename hash (dual_type b') (cache_id e')) (filename hash (dual_type b) (cache_id e))) as [E'|E'].
    + right. apply filename_inj in E'; [|exact hash_len]. destruct E' as [Et Ei].
      apply dual_type_inj in Et. subst b'. apply hash_inj in Ei; [|assumption..].
      apply cache_id_inj in Ei; [|auto..]. subst e'. reflexivity.
    + apply Hf. exact He'.
  - rewrite round_trip by exact Hwf. rewrite Hr, Hc. simpl. rewrite !Nat.eqb_refl. simpl.
    exists f. split; [reflexivity|exact Hf].
Qed.

Lemma run_dual_good calls : forall f, good f -> Forall (fun c => used (fst c)) calls ->
  exists f', run_dual hash compute ndofs f calls = Ok f' /\ good f'.
Proof.
  induction calls as [|[e b] calls IH]; intros f Hf Hu; [exists f; auto|].
  apply Forall_cons_iff in Hu. destruct Hu as [He Hu].
  destruct (get_dual_good f e b Hf He) as (f' & E & Hf'). simpl. rewrite E. apply IH; assumption.
Qed.

Lemma empty_good : good empty_fs.
Proof. intros e b _. left. reflexivity. Qed.
End Transparent.
