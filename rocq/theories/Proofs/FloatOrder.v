(** Rounding is monotone, so floating point keeps the directions of the exact formulas. *)

From Coq Require Import ZArith Bool Reals Lra Lia Psatz.
From Flocq Require Import Core BinarySingleNaN.
From Verif Require Import Model.Num Model.Py Model.Dists Model.Models Model.Table Model.Symbolic Model.PyNum Model.Float64.
From Verif Require Import Spec.Floating Spec.FloatOrder Proofs.Param Proofs.PyNum Proofs.Floating Proofs.FloatModels.
From Coq Require Import List.
Import ListNotations.
Open Scope R_scope.

Notation zero := (B754_zero false : f64).

(** ** A finite result was rounded once *)

Lemma overflow_infinite (x : f64) s m : B2SF x = binary_overflow 53 1024 m s -> m = mode_NE -> is_finite x = false.
Proof. intros H ->. destruct x; simpl in *; try reflexivity; discriminate. Qed.

Lemma add_finite x y : finite (Bplus mode_NE x y) ->
  finite x /\ finite y /\ value (Bplus mode_NE x y) = rnd (value x + value y).
Proof.
  unfold finite, value. intros H.
  assert (K : is_finite x = true /\ is_finite y = true).
  { destruct x as [s|s| |s m e B], y as [s'|s'| |s' m' e' B']; simpl in *; auto; try discriminate;
      destruct (Bool.eqb s s'); discriminate. }
  destruct K as [Fx Fy]. split; auto. split; auto.
  pose proof (Bplus_correct _ _ _ _ mode_NE _ _ Fx Fy) as C. destruct (Rlt_bool _ _). tauto.
  destruct C as [C _]. apply overflow_infinite in C; auto. congruence.
Qed.
Lemma sub_finite x y : finite (Bminus mode_NE x y) ->
  finite x /\ finite y /\ value (Bminus mode_NE x y) = rnd (value x - value y).
Proof.
  unfold finite, value. intros H.
  assert (K : is_finite x = true /\ is_finite y = true).
  { destruct x as [s|s| |s m e B], y as [s'|s'| |s' m' e' B']; simpl in *; auto; try discriminate;
      destruct (Bool.eqb s (negb s')); discriminate. }
  destruct K as [Fx Fy]. split; auto. split; auto.
  pose proof (Bminus_correct _ _ _ _ mode_NE _ _ Fx Fy) as C. destruct (Rlt_bool _ _). tauto.
  destruct C as [C _]. apply overflow_infinite in C; auto. congruence.
Qed.
Lemma mul_finite x y : finite (Bmult mode_NE x y) ->
  finite x /\ finite y /\ value (Bmult mode_NE x y) = rnd (value x * value y).
Proof.
  unfold finite, value. intros H.
  pose proof (Bmult_correct _ _ _ _ mode_NE x y) as C. destruct (Rlt_bool _ _).
  - destruct C as (C & D & _). rewrite D in H. apply andb_true_iff in H. tauto.
  - apply overflow_infinite in C; auto. congruence.
Qed.
Lemma div_finite x y : value y <> 0 -> finite (Bdiv mode_NE x y) ->
  finite x /\ value (Bdiv mode_NE x y) = rnd (value x / value y).
Proof.
  unfold finite, value. intros Hy H.
  pose proof (Bdiv_correct _ _ _ _ mode_NE x y Hy) as C. destruct (Rlt_bool _ _).
  - destruct C as (C & D & _). rewrite D in H. tauto.
  - apply overflow_infinite in C; auto. congruence.
Qed.

Lemma rnd_le x y : x <= y -> rnd x <= rnd y.
Proof. intros H. apply round_le; auto. apply FLT_exp_valid. reflexivity. apply valid_rnd_N. Qed.
Lemma rnd_nonneg x : 0 <= x -> 0 <= rnd x.
Proof. intros H. rewrite <- rnd_zero. now apply rnd_le. Qed.

(** ** Directions of a formula *)

Inductive dir := Const | Up | Down.
Definition flip (d : dir) : dir := match d with Const => Const | Up => Down | Down => Up end.
Definition join (a b : dir) : option dir :=
  match a, b with
  | Const, d | d, Const => Some d
  | Up, Up => Some Up | Down, Down => Some Down
  | _, _ => None
  end.
Definition moves (d : dir) (x y : R) : Prop := match d with Const => x = y | Up => x <= y | Down => y <= x end.

(** Nonnegative if the inputs are. *)
Fixpoint nonneg (e : expr) : bool :=
  match e with
  | EVar _ => true
  | ELit z => ((0 <=? z) && (z <=? 2 ^ 53))%Z
  | EAdd a b | EMul a b => nonneg a && nonneg b
  | _ => false
  end.
Definition is_var (e : expr) : bool := match e with EVar _ => true | _ => false end.
Definition both (f : dir -> dir -> option dir) (a b : option dir) : option dir :=
  match a, b with Some a, Some b => f a b | _, _ => None end.
Fixpoint trend (i : nat) (e : expr) : option dir :=
  match e with
  | EVar v => Some (if Nat.eqb v i then Up else Const)
  | ELit _ => Some Const
  | EAdd a b => both join (trend i a) (trend i b)
  | ESub a b => both (fun a b => join a (flip b)) (trend i a) (trend i b)
  | EMul a b => if nonneg a && nonneg b then both join (trend i a) (trend i b) else None
  | EMax a b => if is_var a && is_var b then both join (trend i a) (trend i b) else None
  | _ => None
  end.

Section Sound.
Variable L : Libm.
Hypothesis HM : max_correct L.
Notation feval args e := (eval (NA := NumF64 L) (Ufuncs_f64 L) (fun i => nth i args zero) e).
Definition good (args : list f64) := Forall (fun x => finite x /\ 0 <= value x) args.

Lemma good_nth args k : good args -> finite (nth k args zero) /\ 0 <= value (nth k args zero).
Proof.
  intros H. destruct (le_lt_dec (length args) k) as [E|E].
  - rewrite nth_overflow by auto. split. reflexivity. cbn. lra.
  - unfold good in H. rewrite Forall_forall in H. apply H. now apply nth_In.
Qed.

Lemma nonneg_spec args e : good args -> nonneg e = true -> finite (feval args e) -> 0 <= value (feval args e).
Proof.
  intros HG. induction e; simpl; try discriminate; intros N F.
  - now apply good_nth.
  - apply andb_true_iff in N as [N M]. apply Zle_bool_imp_le in N. apply Zle_bool_imp_le in M.
    destruct (nlit_exact z) as [_ V]. lia. change (0 <= value (f64_of z 0)). rewrite V. now apply IZR_le.
  - apply andb_true_iff in N as [N M]. destruct (add_finite _ _ F) as (Fa & Fb & V). rewrite V.
    apply rnd_nonneg. specialize (IHe1 N Fa). specialize (IHe2 M Fb). lra.
  - apply andb_true_iff in N as [N M]. destruct (mul_finite _ _ F) as (Fa & Fb & V). rewrite V.
    apply rnd_nonneg. specialize (IHe1 N Fa). specialize (IHe2 M Fb). nra.
Qed.

Lemma trend_sound i args args' e : good args -> good args' -> grows value zero i args args' ->
  forall d, trend i e = Some d -> finite (feval args e) -> finite (feval args' e) ->
  moves d (value (feval args e)) (value (feval args' e)).
Proof.
  intros G G' (_ & Same & Le). induction e; simpl; try discriminate; intros d T F F'.
  - destruct (Nat.eqb_spec v i) as [->|E]; injection T as <-; simpl; auto. now rewrite Same.
  - injection T as <-. reflexivity.
  - destruct (trend i e1) as [d1|], (trend i e2) as [d2|]; try discriminate T.
    destruct (add_finite _ _ F) as (Fa & Fb & V), (add_finite _ _ F') as (Fa' & Fb' & V').
    specialize (IHe1 _ eq_refl Fa Fa'). specialize (IHe2 _ eq_refl Fb Fb'). rewrite V, V'.
    destruct d1, d2; simpl in T; try discriminate T; injection T as <-; simpl in *; first [apply rnd_le; lra | now rewrite IHe1, IHe2].
  - destruct (trend i e1) as [d1|], (trend i e2) as [d2|]; try discriminate T.
    destruct (sub_finite _ _ F) as (Fa & Fb & V), (sub_finite _ _ F') as (Fa' & Fb' & V').
    specialize (IHe1 _ eq_refl Fa Fa'). specialize (IHe2 _ eq_refl Fb Fb'). rewrite V, V'.
    destruct d1, d2; simpl in T; try discriminate T; injection T as <-; simpl in *; first [apply rnd_le; lra | now rewrite IHe1, IHe2].
  - destruct (nonneg e1 && nonneg e2)%bool eqn:N; [|discriminate T]. apply andb_true_iff in N as [N1 N2].
    destruct (trend i e1) as [d1|], (trend i e2) as [d2|]; try discriminate T.
    destruct (mul_finite _ _ F) as (Fa & Fb & V), (mul_finite _ _ F') as (Fa' & Fb' & V').
    specialize (IHe1 _ eq_refl Fa Fa'). specialize (IHe2 _ eq_refl Fb Fb'). rewrite V, V'.
    pose proof (nonneg_spec _ _ G N1 Fa). pose proof (nonneg_spec _ _ G N2 Fb).
    pose proof (nonneg_spec _ _ G' N1 Fa'). pose proof (nonneg_spec _ _ G' N2 Fb').
    destruct d1, d2; simpl in T; try discriminate T; injection T as <-; simpl in *;
      first [apply rnd_le; rewrite ?IHe1, ?IHe2; apply Rmult_le_compat; lra | now rewrite IHe1, IHe2].
  - destruct (is_var e1 && is_var e2)%bool eqn:N; [|discriminate T]. apply andb_true_iff in N as [N1 N2].
    destruct e1 as [v1| | | | | | | | | | | | | | |]; try discriminate N1. destruct e2 as [v2| | | | | | | | | | | | | | |]; try discriminate N2.
    simpl in *. destruct (HM _ _ (proj1 (good_nth args v1 G)) (proj1 (good_nth args v2 G))) as [_ V].
    destruct (HM _ _ (proj1 (good_nth args' v1 G')) (proj1 (good_nth args' v2 G'))) as [_ V']. rewrite V, V'.
    specialize (IHe1 _ eq_refl (proj1 (good_nth args v1 G)) (proj1 (good_nth args' v1 G'))).
    specialize (IHe2 _ eq_refl (proj1 (good_nth args v2 G)) (proj1 (good_nth args' v2 G'))).
    destruct (Nat.eqb v1 i), (Nat.eqb v2 i); simpl in T; injection T as <-; simpl in *;
      first [apply Rle_max_compat_l | idtac]; unfold Rmax; repeat destruct Rle_dec; try lra; try congruence.
Qed.
End Sound.

(** ** The direction is that of the exact formula: witnesses in whole numbers *)

Fixpoint evalZ (row : nat -> Z) (e : expr) : Z :=
  match e with
  | EVar v => row v | ELit z => z
  | EAdd a b => evalZ row a + evalZ row b | ESub a b => evalZ row a - evalZ row b
  | EMul a b => evalZ row a * evalZ row b | EMax a b => Z.max (evalZ row a) (evalZ row b)
  | _ => 0
  end%Z.
Lemma evalZ_spec arctan2 (row : nat -> Z) (e : expr) i d : trend i e = Some d ->
  eval (Ufuncs_R arctan2) (fun k => IZR (row k)) e = IZR (evalZ row e).
Proof.
  revert d. induction e; simpl; try discriminate; intros d T; auto.
  - destruct (trend i e1), (trend i e2); try discriminate T. rewrite plus_IZR. f_equal; eauto.
  - destruct (trend i e1), (trend i e2); try discriminate T. rewrite minus_IZR. f_equal; eauto.
  - destruct (nonneg e1 && nonneg e2)%bool; [|discriminate T]. destruct (trend i e1), (trend i e2); try discriminate T. rewrite mult_IZR. f_equal; eauto.
  - destruct (is_var e1 && is_var e2)%bool; [|discriminate T]. destruct (trend i e1), (trend i e2); try discriminate T.
    rewrite (IHe1 _ eq_refl), (IHe2 _ eq_refl). unfold Rmax. destruct Rle_dec as [R|R].
    apply le_IZR in R. now rewrite Z.max_r. apply Rnot_le_lt, lt_IZR in R. rewrite Z.max_l; auto. lia.
Qed.

Definition ones (n : nat) : list Z := repeat 1%Z n.
Definition bump (n i : nat) : list Z := map (fun k => if Nat.eqb k i then 2%Z else 1%Z) (seq 0 n).
Definition witness (n i : nat) (e : expr) : bool :=
  let a := evalZ (fun k => nth k (ones n) 0%Z) e in
  let b := evalZ (fun k => nth k (bump n i) 0%Z) e in
  match trend i e with Some Const => true | Some Up => (a <? b)%Z | Some Down => (b <? a)%Z | None => false end.
Lemma witnesses_checked : forallb (fun f => forallb (fun n => match run Ufuncs_expr f (columns n) with
    | Ok outs => forallb (fun e => forallb (fun i => witness n i e) (seq 0 n)) outs
    | Raise _ => true end) (seq 0 8)) counting_fns = true.
Proof. vm_compute. reflexivity. Qed.
Lemma witnesses f n outs i e : In f counting_fns -> run Ufuncs_expr f (columns n) = Ok outs -> (i < n)%nat -> In e outs ->
  witness n i e = true.
Proof.
  intros Hf H Hi He. destruct (le_lt_dec 8 n) as [L|L].
  { rewrite run_long in H; [discriminate H|]. unfold columns. now rewrite map_length, seq_length. }
  pose proof witnesses_checked as G. rewrite forallb_forall in G. specialize (G f Hf). rewrite forallb_forall in G.
  specialize (G n ltac:(apply in_seq; lia)). rewrite H in G. rewrite forallb_forall in G. specialize (G e He).
  rewrite forallb_forall in G. apply G. apply in_seq. lia.
Qed.

Lemma nth_IZR l k : nth k (map IZR l) 0 = IZR (nth k l 0%Z).
Proof. change 0 with (IZR 0) at 1. apply map_nth. Qed.
Lemma run_Z arctan2 f n outs (l : list Z) : length l = n -> run Ufuncs_expr f (columns n) = Ok outs ->
  run (Ufuncs_R arctan2) f (map IZR l) = Ok (map (eval (Ufuncs_R arctan2) (fun k => IZR (nth k l 0%Z))) outs).
Proof.
  intros Hn H. rewrite <- (columns_eval (Ufuncs_R arctan2) (map IZR l) 0) at 1.
  rewrite map_length, Hn, run_symbolic, H. cbn [rmap bind]. f_equal. apply map_ext. intros e. f_equal.
  apply FunctionalExtensionality.functional_extensionality. intros k. apply nth_IZR.
Qed.

Lemma nth_map_In {A B} (g : A -> B) (l : list A) j d : (j < length l)%nat -> exists a, In a l /\ nth_error l j = Some a /\ nth j (map g l) d = g a.
Proof.
  intros H. destruct (nth_error l j) as [a|] eqn:E. 2: apply nth_error_None in E; lia.
  exists a. split. now apply nth_error_In in E. split; auto. apply nth_error_nth. now rewrite nth_error_map, E.
Qed.
Lemma nth_error_map_nth {A B} (g : A -> B) (l : list A) j d a : nth_error l j = Some a -> nth j (map g l) d = g a.
Proof. intros E. apply nth_error_nth. now rewrite nth_error_map, E. Qed.

(** The two rows of the witness. *)
Lemma bump_length n i : length (bump n i) = n. Proof. unfold bump. now rewrite map_length, seq_length. Qed.
Lemma bump_nth n i k : (k < n)%nat -> nth k (bump n i) 0%Z = if Nat.eqb k i then 2%Z else 1%Z.
Proof.
  intros H. unfold bump. set (g := fun k => if Nat.eqb k i then 2%Z else 1%Z).
  rewrite (nth_indep _ _ (g 0%nat)) by now rewrite map_length, seq_length. rewrite (map_nth g), seq_nth by auto. reflexivity.
Qed.
Lemma ones_nth n k : (k < n)%nat -> nth k (ones n) 0%Z = 1%Z.
Proof. revert k. induction n; intros k H; [lia|]. destruct k; simpl; auto. apply IHn. lia. Qed.
Lemma rows_grow n i : (i < n)%nat -> grows (fun x => x) 0 i (map IZR (ones n)) (map IZR (bump n i)).
Proof.
  intros Hi. split. rewrite !map_length, bump_length. apply repeat_length.
  split. 2: rewrite !nth_IZR, ones_nth, bump_nth, Nat.eqb_refl by auto; lra.
  intros k Hk. rewrite !nth_IZR. destruct (le_lt_dec n k) as [E|E].
  - rewrite !nth_overflow; auto. now rewrite bump_length. unfold ones. now rewrite repeat_length.
  - rewrite ones_nth, bump_nth by auto. destruct (Nat.eqb_spec k i); congruence.
Qed.
Lemma rows_nonneg n i : Forall (Rle 0) (map IZR (ones n)) /\ Forall (Rle 0) (map IZR (bump n i)).
Proof.
  split; rewrite Forall_forall; intros x Hx; apply in_map_iff in Hx as (z & <- & Hz); apply IZR_le.
  - apply repeat_spec in Hz. lia.
  - apply in_map_iff in Hz as (k & <- & _). destruct Nat.eqb; lia.
Qed.

(** The direction of a counting function is the one its formula shows. *)
Lemma exact_direction f n outs i j e d : In f counting_fns -> run Ufuncs_expr f (columns n) = Ok outs -> (i < n)%nat ->
  nth_error outs j = Some e -> trend i e = Some d ->
  (exact_never_falls f i j -> d <> Down) /\ (exact_never_rises f i j -> d <> Up).
Proof.
  intros Hf H Hi He T. pose proof (witnesses f n outs i e Hf H Hi (nth_error_In _ _ He)) as W. unfold witness in W. rewrite T in W.
  set (atan := fun _ _ : R => 0).
  destruct (rows_nonneg n i) as [N1 N2]. pose proof (rows_grow n i Hi) as G.
  pose proof (run_Z atan f n outs (ones n) (repeat_length _ _) H) as R1.
  pose proof (run_Z atan f n outs (bump n i) (bump_length _ _) H) as R2.
  split; intros M ->; specialize (M atan _ _ _ _ N1 N2 G R1 R2); rewrite !(nth_error_map_nth _ _ _ _ _ He) in M;
    rewrite !(evalZ_spec _ _ _ _ _ T) in M; apply le_IZR in M; apply Z.ltb_lt in W; lia.
Qed.

Lemma same_args i (args args' : list f64) : grows value zero i args args' -> (length args <= i)%nat -> args = args'.
Proof.
  intros (HL & S & _) Hi. apply nth_ext with (d := zero) (d' := zero); auto. intros k Hk. apply S. lia.
Qed.

Lemma order_kept L f i j args args' fout fout' : max_correct L -> In f counting_fns ->
  good args -> good args' -> grows value zero i args args' ->
  run_f64 L f args = Ok fout -> run_f64 L f args' = Ok fout' -> Forall finite fout -> Forall finite fout' ->
  (exact_never_falls f i j -> value (nth j fout zero) <= value (nth j fout' zero)) /\
  (exact_never_rises f i j -> value (nth j fout' zero) <= value (nth j fout zero)).
Proof.
  intros HM Hf HG HG' Gr R1 R2 F1 F2.
  destruct (le_lt_dec (length args) i) as [Hi|Hi].
  { pose proof (same_args _ _ _ Gr Hi). subst args'. rewrite R1 in R2. injection R2 as <-. split; intros; lra. }
  pose proof (proj1 Gr) as HL.
  destruct (run Ufuncs_expr f (columns (length args))) as [outs|er] eqn:E.
  2:{ unfold run_f64 in R1. rewrite <- (columns_eval (NA := NumF64 L) (Ufuncs_f64 L) args zero), run_symbolic, E in R1. discriminate. }
  rewrite (run_f64_eval L f args outs E) in R1. injection R1 as <-.
  pose proof E as E'. rewrite HL in E'. rewrite (run_f64_eval L f args' outs E') in R2. injection R2 as <-.
  destruct (nth_error outs j) as [e|] eqn:Ej.
  2:{ apply nth_error_None in Ej. rewrite !nth_overflow by now rewrite map_length. split; intros; lra. }
  rewrite !(nth_error_map_nth _ _ _ _ _ Ej).
  pose proof (witnesses _ _ _ _ _ Hf E Hi (nth_error_In _ _ Ej)) as W. unfold witness in W.
  destruct (trend i e) as [d|] eqn:T; [|discriminate W]. clear W.
  destruct (exact_direction _ _ _ _ _ _ _ Hf E Hi Ej T) as [Dn Up'].
  rewrite Forall_map, Forall_forall in F1, F2. pose proof (nth_error_In _ _ Ej) as Hin.
  pose proof (trend_sound L HM i args args' e HG HG' Gr d T (F1 _ Hin) (F2 _ Hin)) as M.
  split; intros P; [specialize (Dn P)|specialize (Up' P)]; destruct d; simpl in M; try congruence; lra.
Qed.

(** ** The posterior mean of a normal mean *)

Lemma value_pos_finite (x : f64) : 0 < value x -> finite x.
Proof. destruct x; cbn; intros H; try reflexivity; lra. Qed.
Lemma add_monotone a b a' b' : finite (Bplus mode_NE a b) -> finite (Bplus mode_NE a' b') -> value a <= value a' -> value b <= value b' ->
  value (Bplus mode_NE a b) <= value (Bplus mode_NE a' b').
Proof. intros F F' H K. destruct (add_finite _ _ F) as (_ & _ & ->), (add_finite _ _ F') as (_ & _ & ->). apply rnd_le. lra. Qed.
Lemma div_monotone a a' c : 0 < value c -> finite (Bdiv mode_NE a c) -> finite (Bdiv mode_NE a' c) -> value a <= value a' ->
  value (Bdiv mode_NE a c) <= value (Bdiv mode_NE a' c).
Proof.
  intros C F F' H. destruct (div_finite a c) as [_ ->]; auto; try lra. destruct (div_finite a' c) as [_ ->]; auto; try lra. apply rnd_le.
  apply Rmult_le_compat_r; auto. left. now apply Rinv_0_lt_compat.
Qed.
(** a finite quotient: the divisor is a nonzero number, or infinite and every such quotient is zero *)
Lemma div_cases a c : finite (Bdiv mode_NE a c) ->
  (finite c /\ value c <> 0) \/ (forall a', finite (Bdiv mode_NE a' c) -> value (Bdiv mode_NE a' c) = 0).
Proof.
  unfold finite. intros F. destruct c as [s|s| |s m e B].
  - exfalso. destruct a; discriminate F.
  - right. intros a' F'. destruct a'; try discriminate F'; reflexivity.
  - exfalso. destruct a; discriminate F.
  - left. split; auto. cbn. intros H. apply eq_0_F2R in H. destruct s; discriminate H.
Qed.

Lemma one_value : value (f64_of 1 0) = 1. Proof. apply nlit_exact. lia. Qed.
Lemma div_nonneg a c : 0 <= value a -> 0 < value c -> finite (Bdiv mode_NE a c) -> 0 <= value (Bdiv mode_NE a c).
Proof.
  intros A C F. destruct (div_finite a c) as [_ ->]; auto; try lra. apply rnd_nonneg.
  apply Rmult_le_pos; auto. left. now apply Rinv_0_lt_compat.
Qed.

Lemma mean_order L x x' n var mu mu' sigma :
  let s2 := lm_pow L sigma (f64_of 2 0) in
  0 < value s2 -> 0 < value var -> 0 <= value n -> value x <= value x' -> value mu <= value mu' ->
  let m := Normal_mu (normal_known_variance (NA := NumF64 L) x n var (mkNormal mu sigma)) in
  let m' := Normal_mu (normal_known_variance (NA := NumF64 L) x' n var (mkNormal mu' sigma)) in
  finite m -> finite m' -> value m <= value m'.
Proof.
  intros s2 S V N Hx Hmu m m' F F'.
  set (den := Bplus mode_NE (Bdiv mode_NE (f64_of 1 0) s2) (Bdiv mode_NE n var)).
  change m with (Bdiv mode_NE (Bplus mode_NE (Bdiv mode_NE mu s2) (Bdiv mode_NE x var)) den) in *.
  change m' with (Bdiv mode_NE (Bplus mode_NE (Bdiv mode_NE mu' s2) (Bdiv mode_NE x' var)) den) in *. clear m m'.
  destruct (div_cases _ _ F) as [[Fd Nd]|Z]. 2: rewrite !Z by auto; lra.
  destruct (add_finite _ _ Fd) as (F1 & F2 & Ed).
  assert (Pd : 0 < value den).
  { enough (0 <= value den) by lra. unfold den. rewrite Ed. apply rnd_nonneg. apply Rplus_le_le_0_compat; apply div_nonneg; auto.
    rewrite one_value. lra. }
  destruct (div_finite _ _ Nd F) as [Fn _]. destruct (div_finite _ _ Nd F') as [Fn' _].
  apply div_monotone; auto. destruct (add_finite _ _ Fn) as (A1 & A2 & _). destruct (add_finite _ _ Fn') as (B1 & B2 & _).
  apply add_monotone; auto; apply div_monotone; auto.
Qed.
Lemma mean_order_precision L x x' n tau mu mu' sigma :
  let s2 := lm_pow L sigma (f64_of 2 0) in
  0 < value s2 -> 0 < value (Bdiv mode_NE (f64_of 1 0) tau) -> 0 <= value n -> value x <= value x' -> value mu <= value mu' ->
  let m := Normal_mu (normal_known_precision (NA := NumF64 L) x n tau (mkNormal mu sigma)) in
  let m' := Normal_mu (normal_known_precision (NA := NumF64 L) x' n tau (mkNormal mu' sigma)) in
  finite m -> finite m' -> value m <= value m'.
Proof. exact (mean_order L x x' n _ mu mu' sigma). Qed.

(** ** Evidence can be lost *)

Lemma success_lost L : let prior := mkBeta (f64_of (2 ^ 53) 0) (f64_of 1 0) in
  let posterior := binomial_beta (NA := NumF64 L) (f64_of 1 0) (f64_of 1 0) prior in
  value (Beta_alpha posterior) = value (Beta_alpha prior) /\ value (Beta_beta posterior) = value (Beta_beta prior).
Proof.
  cbv zeta. split.
  - transitivity (2 ^ 53). sf; lra. symmetry. sf; lra.
  - transitivity 1. sf; lra. symmetry. sf; lra.
Qed.
