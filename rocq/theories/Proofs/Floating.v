(** Rounding errors of the element-wise functions in binary64. *)

From Coq Require Import ZArith Bool Reals Lra Lia Psatz.
From Flocq Require Import Core BinarySingleNaN Relative.
From Verif Require Import Model.Num Model.Py Model.Table Model.Symbolic Model.PyNum Model.Float64.
From Verif Require Import Spec.Floating Proofs.Param Proofs.PyNum.
From Coq Require Import List.
Import ListNotations.
Open Scope R_scope.

Notation fx := (FLT_exp (-1074) 53).
Notation rnd := (round radix2 fx ZnearestE).

(** ** Powers of two *)

Lemma pow2_pos n : 0 < 2 ^ n. Proof. apply pow_lt; lra. Qed.
Lemma bpow_nat n : bpow radix2 (Z.of_nat n) = 2 ^ n.
Proof.
  induction n. reflexivity.
  rewrite Nat2Z.inj_succ, <- Z.add_1_r, bpow_plus, IHn. simpl. lra.
Qed.
Lemma bpow_neg n : bpow radix2 (- Z.of_nat n) = / 2 ^ n.
Proof. now rewrite bpow_opp, bpow_nat. Qed.
Lemma pow2_le m n : (m <= n)%nat -> 2 ^ m <= 2 ^ n.
Proof. intros. apply Rle_pow; lra || lia. Qed.
Lemma inv_pow2_le m n : (m <= n)%nat -> / 2 ^ n <= / 2 ^ m.
Proof. intros. apply Rinv_le_contravar. apply pow2_pos. now apply pow2_le. Qed.

Lemma u_pos : 0 < u. Proof. apply Rinv_0_lt_compat, pow2_pos. Qed.
Lemma u_small : u <= / 2.
Proof. unfold u. replace (/ 2) with (/ 2 ^ 1) by lra. apply inv_pow2_le. lia. Qed.
Lemma u_bpow : u = / 2 * bpow radix2 (-53 + 1).
Proof.
  unfold u. change (-53 + 1)%Z with (- Z.of_nat 52)%Z. rewrite bpow_neg.
  replace (2 ^ 53) with (2 * 2 ^ 52) by (simpl; lra). rewrite Rinv_mult_distr; auto using Rgt_not_eq, pow2_pos. lra.
Qed.

(** ** [within] *)

Lemma c_pos k : 0 < (1 - u) ^ k. Proof. apply pow_lt. pose proof u_small. lra. Qed.
Lemma c_le k k' : (k <= k')%nat -> (1 - u) ^ k' <= (1 - u) ^ k.
Proof.
  intros H. replace k' with (k + (k' - k))%nat by lia. rewrite pow_add.
  assert ((1 - u) ^ (k' - k) <= 1). { rewrite <- (pow1 (k' - k)) at 2. apply pow_incr. pose proof u_small; pose proof u_pos; split; lra. }
  pose proof (c_pos k). nra.
Qed.
Lemma c_inv_le k k' : (k <= k')%nat -> / (1 - u) ^ k <= / (1 - u) ^ k'.
Proof. intros. apply Rinv_le_contravar. apply c_pos. now apply c_le. Qed.

Lemma within_refl k x : 0 <= x -> within k x x.
Proof.
  intros Hx. unfold within, Rdiv. pose proof (c_le 0 k ltac:(lia)). pose proof (c_inv_le 0 k ltac:(lia)). simpl in *.
  rewrite Rinv_1 in *. nra.
Qed.
Lemma within_mono k k' v x : (k <= k')%nat -> 0 <= x -> within k v x -> within k' v x.
Proof.
  intros H Hx [A B]. unfold within, Rdiv in *. pose proof (c_le _ _ H). pose proof (c_inv_le _ _ H). split; nra.
Qed.
Lemma within_trans k k' w v x : 0 <= x -> within k v x -> within k' w v -> within (k' + k) w x.
Proof.
  intros Hx [A B] [C D]. unfold within, Rdiv in *. rewrite pow_add, Rinv_mult_distr by (apply Rgt_not_eq, c_pos).
  pose proof (c_pos k). pose proof (c_pos k'). pose proof (Rinv_0_lt_compat _ H). pose proof (Rinv_0_lt_compat _ H0).
  split.
  - apply Rle_trans with ((1 - u) ^ k' * v); auto. rewrite Rmult_assoc. apply Rmult_le_compat_l; lra.
  - apply Rle_trans with (v * / (1 - u) ^ k'); auto.
    replace (x * (/ (1 - u) ^ k' * / (1 - u) ^ k)) with (x * / (1 - u) ^ k * / (1 - u) ^ k') by ring.
    apply Rmult_le_compat_r; lra.
Qed.
Lemma within_nonneg k v x : 0 <= x -> within k v x -> 0 <= v.
Proof. intros Hx [A _]. pose proof (c_pos k). nra. Qed.
Lemma within_pos k v x : 0 < x -> within k v x -> 0 < v.
Proof. intros Hx [A _]. pose proof (c_pos k). nra. Qed.
Lemma within_zero k v : within k v 0 -> v = 0.
Proof. unfold within, Rdiv. intros [A B]. rewrite Rmult_0_r in A. rewrite Rmult_0_l in B. lra. Qed.

Lemma within_add k k' v v' x x' : 0 <= x -> 0 <= x' -> within k v x -> within k' v' x' ->
  within (Nat.max k k') (v + v') (x + x').
Proof.
  intros Hx Hx' H H'. apply (within_mono k (Nat.max k k')) in H; [|lia|auto]. apply (within_mono k' (Nat.max k k')) in H'; [|lia|auto].
  unfold within, Rdiv in *. split; nra.
Qed.
Lemma within_mul k k' v v' x x' : 0 <= x -> 0 <= x' -> within k v x -> within k' v' x' ->
  within (k + k') (v * v') (x * x').
Proof.
  intros Hx Hx' H H'. pose proof (within_nonneg _ _ _ Hx H). pose proof (within_nonneg _ _ _ Hx' H').
  destruct H as [A B], H' as [C D]. unfold within, Rdiv in *. rewrite pow_add, Rinv_mult_distr by (apply Rgt_not_eq, c_pos).
  pose proof (c_pos k). pose proof (c_pos k').
  split.
  - replace ((1 - u) ^ k * (1 - u) ^ k' * (x * x')) with (((1 - u) ^ k * x) * ((1 - u) ^ k' * x')) by ring.
    apply Rmult_le_compat; auto; apply Rmult_le_pos; lra.
  - replace (x * x' * (/ (1 - u) ^ k * / (1 - u) ^ k')) with ((x * / (1 - u) ^ k) * (x' * / (1 - u) ^ k')) by ring.
    apply Rmult_le_compat; auto.
Qed.
Lemma within_inv k v x : 0 < x -> within k v x -> within k (/ v) (/ x).
Proof.
  intros Hx H. pose proof (within_pos _ _ _ Hx H). destruct H as [A B]. unfold within, Rdiv in *. pose proof (c_pos k). split.
  - replace ((1 - u) ^ k * / x) with (/ (x * / (1 - u) ^ k)) by (field; split; apply Rgt_not_eq; auto). now apply Rinv_le_contravar.
  - rewrite <- Rinv_mult_distr; try (apply Rgt_not_eq; auto). apply Rinv_le_contravar. now apply Rmult_lt_0_compat. lra.
Qed.
Lemma within_div k k' v v' x x' : 0 <= x -> 0 < x' -> within k v x -> within k' v' x' ->
  within (k + k') (v / v') (x / x').
Proof.
  intros. unfold Rdiv. apply within_mul; auto. left. now apply Rinv_0_lt_compat. now apply within_inv.
Qed.
Lemma within_max k k' v v' x x' : 0 <= x -> 0 <= x' -> within k v x -> within k' v' x' ->
  within (Nat.max k k') (Rmax v v') (Rmax x x').
Proof.
  intros Hx Hx' H H'. apply (within_mono k (Nat.max k k')) in H; [|lia|auto]. apply (within_mono k' (Nat.max k k')) in H'; [|lia|auto].
  destruct H as [A B], H' as [C D]. set (c := (1 - u) ^ Nat.max k k') in *. assert (Hc : 0 < c) by apply c_pos.
  assert (0 < / c) by now apply Rinv_0_lt_compat. unfold within, Rdiv in *. fold c.
  unfold Rmax. destruct (Rle_dec x x'), (Rle_dec v v'); split; nra.
Qed.
Lemma sqrt_c k : (1 - u) ^ k <= sqrt ((1 - u) ^ k).
Proof.
  pose proof (c_pos k). pose proof (c_le 0 k ltac:(lia)). simpl in H0. rewrite <- (sqrt_Rsqr ((1 - u) ^ k)) at 1 by lra.
  apply sqrt_le_1_alt. unfold Rsqr. nra.
Qed.
Lemma within_sqrt k v x : 0 <= x -> within k v x -> within k (sqrt v) (sqrt x).
Proof.
  intros Hx [A B]. pose proof (c_pos k) as Hc. pose proof (sqrt_c k) as Hs. pose proof (sqrt_pos x). unfold within, Rdiv in *.
  assert (0 < / (1 - u) ^ k) by now apply Rinv_0_lt_compat.
  split.
  - apply Rle_trans with (sqrt ((1 - u) ^ k * x)). 2: now apply sqrt_le_1_alt.
    rewrite sqrt_mult by lra. nra.
  - apply Rle_trans with (sqrt (x * / (1 - u) ^ k)). now apply sqrt_le_1_alt.
    rewrite sqrt_mult by lra. apply Rmult_le_compat_l; auto. rewrite sqrt_inv by auto.
    apply Rinv_le_contravar; auto.
Qed.

(** Bernoulli: fewer than 2^52 roundings cannot change a number by a factor of two. *)
Lemma c_bernoulli k : 1 - INR k * u <= (1 - u) ^ k.
Proof.
  induction k. simpl; lra. rewrite S_INR. simpl. pose proof u_pos. pose proof u_small. pose proof (pos_INR k). pose proof (c_pos k).
  assert ((1 - u) * (1 - INR k * u) <= (1 - u) * (1 - u) ^ k) by (apply Rmult_le_compat_l; lra). nra.
Qed.
Lemma c_half k : (k <= 1000)%nat -> / 2 <= (1 - u) ^ k.
Proof.
  intros H. apply Rle_trans with (2 := c_bernoulli k). apply le_INR in H.
  assert (INR 1000 <= 1024) by (rewrite INR_IZR_INZ; apply IZR_le; simpl; lia).
  assert (u <= / 2 ^ 11) by (apply inv_pow2_le; lia).
  assert (E : / 2 ^ 11 = / 2048) by (f_equal; simpl; lra). rewrite E in *. pose proof u_pos. pose proof (pos_INR k). nra.
Qed.
Lemma within_range k v x b : (k <= 1000)%nat -> / 2 ^ b <= x <= 2 ^ b -> within k v x -> / 2 ^ (S b) <= v <= 2 ^ (S b).
Proof.
  intros Hk [A B] [C D]. pose proof (c_half k Hk). unfold Rdiv in D. pose proof (c_pos k).
  assert (/ (1 - u) ^ k <= / / 2) by (apply Rinv_le_contravar; lra). rewrite Rinv_involutive in * by lra.
  pose proof (pow2_pos b). assert (0 < / 2 ^ b) by now apply Rinv_0_lt_compat.
  simpl. rewrite Rinv_mult_distr by (try (apply Rgt_not_eq, pow2_pos); lra). split; nra.
Qed.
Lemma within_tame k v x b : (k <= 1000)%nat -> tame b x -> within k v x -> tame (S b) v.
Proof.
  intros Hk [->|H] W. left. now apply within_zero in W. right. eauto using within_range.
Qed.

(** ** Rounding once *)

Lemma rnd_within x : / 2 ^ 1020 <= x -> within 1 (rnd x) x.
Proof.
  intros H. assert (Hx : 0 < x). { apply Rlt_le_trans with (2 := H). apply Rinv_0_lt_compat, pow2_pos. }
  assert (E : Rabs (rnd x - x) <= / 2 * bpow radix2 (-53 + 1) * Rabs x).
  { apply relative_error_N_FLT. reflexivity.
    rewrite Rabs_pos_eq by lra. apply Rle_trans with (2 := H). rewrite <- bpow_neg. apply bpow_le. lia. }
  rewrite <- u_bpow in E. rewrite (Rabs_pos_eq x) in E by lra. apply Rabs_le_inv in E. pose proof u_pos. pose proof u_small.
  unfold within. rewrite pow_1. split. lra.
  apply Rmult_le_reg_r with (1 - u). lra. unfold Rdiv. rewrite Rmult_assoc, Rinv_l by lra. nra.
Qed.
Lemma rnd_zero : rnd 0 = 0. Proof. apply round_0. apply valid_rnd_N. Qed.
Lemma rnd_lt_max x : Rabs x <= 2 ^ 1020 -> Rabs (rnd x) < bpow radix2 1024.
Proof.
  intros H. apply Rle_lt_trans with (bpow radix2 1020).
  2: apply bpow_lt; lia.
  apply abs_round_le_generic; try typeclasses eauto.
  apply generic_format_bpow. unfold FLT_exp. lia.
  change 1020%Z with (Z.of_nat 1020). now rewrite bpow_nat.
Qed.

Lemma tame_nonneg b x : tame b x -> 0 <= x.
Proof. intros [->|[H _]]. lra. apply Rle_trans with (2 := H). left. apply Rinv_0_lt_compat, pow2_pos. Qed.
Lemma tame_le b b' x : (b <= b')%nat -> tame b x -> tame b' x.
Proof.
  intros H [->|[A B]]; [now left|right]. pose proof (pow2_le _ _ H). pose proof (inv_pow2_le _ _ H). lra.
Qed.
Lemma tame_abs b x : tame b x -> Rabs x <= 2 ^ b.
Proof. intros H. rewrite Rabs_pos_eq by now apply tame_nonneg in H. destruct H as [->|[_ H]]; auto. left. apply pow2_pos. Qed.
Lemma tame_rnd x : tame 1020 x -> within 1 (rnd x) x.
Proof. intros [->|[H _]]. rewrite rnd_zero. apply within_refl; lra. now apply rnd_within. Qed.

(** ** The operations *)

Lemma if_true {P Q : Prop} (b : bool) : b = true -> (if b then P else Q) -> P.
Proof. now intros ->. Qed.

Lemma add_rounds x y : finite x -> finite y -> Rabs (value x + value y) <= 2 ^ 1020 ->
  finite (Bplus mode_NE x y) /\ value (Bplus mode_NE x y) = rnd (value x + value y).
Proof.
  unfold finite, value. intros Fx Fy H. pose proof (Bplus_correct _ _ _ _ mode_NE _ _ Fx Fy) as C.
  apply if_true in C. 2: apply Rlt_bool_true, (rnd_lt_max _ H). tauto.
Qed.
Lemma sub_rounds x y : finite x -> finite y -> Rabs (value x - value y) <= 2 ^ 1020 ->
  finite (Bminus mode_NE x y) /\ value (Bminus mode_NE x y) = rnd (value x - value y).
Proof.
  unfold finite, value. intros Fx Fy H. pose proof (Bminus_correct _ _ _ _ mode_NE _ _ Fx Fy) as C.
  apply if_true in C. 2: apply Rlt_bool_true, (rnd_lt_max _ H). tauto.
Qed.
Lemma mul_rounds x y : finite x -> finite y -> Rabs (value x * value y) <= 2 ^ 1020 ->
  finite (Bmult mode_NE x y) /\ value (Bmult mode_NE x y) = rnd (value x * value y).
Proof.
  unfold finite, value. intros Fx Fy H. pose proof (Bmult_correct _ _ _ _ mode_NE x y) as C.
  apply if_true in C. 2: apply Rlt_bool_true, (rnd_lt_max _ H). destruct C as (C & D & _). rewrite D, Fx, Fy. auto.
Qed.
Lemma div_rounds x y : finite x -> value y <> 0 -> Rabs (value x / value y) <= 2 ^ 1020 ->
  finite (Bdiv mode_NE x y) /\ value (Bdiv mode_NE x y) = rnd (value x / value y).
Proof.
  unfold finite, value. intros Fx Fy H. pose proof (Bdiv_correct _ _ _ _ mode_NE x y Fy) as C.
  apply if_true in C. 2: apply Rlt_bool_true, (rnd_lt_max _ H). destruct C as (C & D & _). rewrite D, Fx. auto.
Qed.

(** ** Representable numbers *)

Lemma representable_format x : representable x -> generic_format radix2 fx x.
Proof.
  intros (m & e & -> & Hm & He). apply generic_format_FLT. exists (Float radix2 m e); simpl; auto; try lia.
  unfold F2R; simpl. f_equal. rewrite bpow_powerRZ. reflexivity.
Qed.

Lemma rnd_representable x : representable x -> rnd x = x.
Proof. intros H. apply round_generic. apply valid_rnd_N. now apply representable_format. Qed.
Lemma representable_lt x : representable x -> Rabs x < bpow radix2 1024.
Proof.
  intros (m & e & -> & Hm & He). rewrite Rabs_mult, <- abs_IZR, (Rabs_pos_eq (powerRZ _ _)) by (apply powerRZ_le; lra).
  apply Rlt_le_trans with (bpow radix2 53 * bpow radix2 e).
  - change 2 with (IZR radix2). rewrite <- bpow_powerRZ. apply Rmult_lt_compat_r. apply bpow_gt_0.
    change (bpow radix2 53) with (IZR (2 ^ 53)). now apply IZR_lt.
  - rewrite <- bpow_plus. apply bpow_le. lia.
Qed.
Lemma exact_lt x : representable x -> Rlt_bool (Rabs (rnd x)) (bpow radix2 1024) = true.
Proof. intros H. apply Rlt_bool_true. rewrite rnd_representable by auto. now apply representable_lt. Qed.

Lemma add_exact x y : finite x -> finite y -> representable (value x + value y) ->
  finite (Bplus mode_NE x y) /\ value (Bplus mode_NE x y) = value x + value y.
Proof.
  unfold finite, value. intros Fx Fy H. pose proof (Bplus_correct _ _ _ _ mode_NE _ _ Fx Fy) as C.
  apply if_true in C. 2: now apply exact_lt. destruct C as (-> & C & _). split; auto. now apply rnd_representable.
Qed.
Lemma sub_exact x y : finite x -> finite y -> representable (value x - value y) ->
  finite (Bminus mode_NE x y) /\ value (Bminus mode_NE x y) = value x - value y.
Proof.
  unfold finite, value. intros Fx Fy H. pose proof (Bminus_correct _ _ _ _ mode_NE _ _ Fx Fy) as C.
  apply if_true in C. 2: now apply exact_lt. destruct C as (-> & C & _). split; auto. now apply rnd_representable.
Qed.
Lemma mul_exact x y : finite x -> finite y -> representable (value x * value y) ->
  finite (Bmult mode_NE x y) /\ value (Bmult mode_NE x y) = value x * value y.
Proof.
  unfold finite, value. intros Fx Fy H. pose proof (Bmult_correct _ _ _ _ mode_NE x y) as C.
  apply if_true in C. 2: now apply exact_lt. destruct C as (-> & C & _). rewrite C, Fx, Fy. split; auto. now apply rnd_representable.
Qed.
Lemma div_exact x y : finite x -> value y <> 0 -> representable (value x / value y) ->
  finite (Bdiv mode_NE x y) /\ value (Bdiv mode_NE x y) = value x / value y.
Proof.
  unfold finite, value. intros Fx Fy H. pose proof (Bdiv_correct _ _ _ _ mode_NE x y Fy) as C.
  apply if_true in C. 2: now apply exact_lt. destruct C as (-> & C & _). rewrite C, Fx. split; auto. now apply rnd_representable.
Qed.
Lemma lit_exact m e : representable (IZR m * powerRZ 2 e) -> finite (f64_of m e) /\ value (f64_of m e) = IZR m * powerRZ 2 e.
Proof.
  intros H. assert (E : F2R (Float radix2 m e) = IZR m * powerRZ 2 e).
  { unfold F2R; simpl. now rewrite bpow_powerRZ. }
  unfold finite, value, f64_of. pose proof (binary_normalize_correct 53 1024 f64_prec f64_emax mode_NE m e false) as C.
  cbv zeta in C. rewrite E in C. apply if_true in C. 2: now apply exact_lt. destruct C as (-> & C & _). split; auto. now apply rnd_representable.
Qed.
Lemma representable_int z : (Z.abs z <= 2 ^ 53)%Z -> representable (IZR z).
Proof.
  intros H. destruct (Z.eq_dec (Z.abs z) (2 ^ 53)) as [E|E].
  - exists (Z.sgn z * 2 ^ 52)%Z, 1%Z. split; [|split]; try lia.
    replace (powerRZ 2 1) with (IZR 2) by (simpl; lra). rewrite <- mult_IZR. f_equal. lia.
  - exists z, 0%Z. simpl. split; [lra|]. lia.
Qed.
Lemma nlit_exact z : (Z.abs z <= 2 ^ 53)%Z -> finite (f64_of z 0) /\ value (f64_of z 0) = IZR z.
Proof.
  intros H. replace (IZR z) with (IZR z * powerRZ 2 0) by (simpl; lra). apply lit_exact.
  simpl. rewrite Rmult_1_r. now apply representable_int.
Qed.
Lemma nhalf_exact : finite (f64_of 1 (-1)) /\ value (f64_of 1 (-1)) = / 2.
Proof.
  replace (/ 2) with (IZR 1 * powerRZ 2 (-1)) by (simpl; lra). apply lit_exact. exists 1%Z, (-1)%Z. repeat split; lia.
Qed.

(** ** Formulas *)

Section Formulas.
Variable L : Libm.
Variable arctan2 : R -> R -> R.
Variable args : list f64.
Hypothesis Fargs : Forall finite args.
Let row := fun i => nth i args (B754_zero false).
Let fl := eval (NA := NumF64 L) (Ufuncs_f64 L) row.
Let ex := exact arctan2 args.

Lemma row_finite i : finite (row i).
Proof.
  unfold row. destruct (nth_in_or_default i args (B754_zero false)) as [H|E]; [|rewrite E]. 2: reflexivity.
  rewrite Forall_forall in Fargs. auto.
Qed.

Lemma inter_self e : In e (intermediates e). Proof. destruct e; now left. Qed.
Lemma nzd_l {a b : expr} {e} : (forall x, In x (intermediates a) -> In x (intermediates e)) ->
  no_zero_division ex e -> no_zero_division ex a.
Proof. intros H [A B]. split; intros; [eapply A|eapply B]; eauto. Qed.

Lemma plain_exact e : max_correct L -> plain e = true ->
  (forall e', In e' (intermediates e) -> representable (ex e')) -> no_zero_division ex e ->
  finite (fl e) /\ value (fl e) = ex e.
Proof.
  intros HM.
  induction e as [v|z| |a IHa b IHb|a IHa b IHb|a IHa b IHb|a IHa b IHb|a _|a _|a _|a _ b _|a _|a IHa b IHb|a _|a _|a _ b _]; intros P Hr Hz;
    simpl in P; try discriminate.
  all: try (apply andb_prop in P as [Pa Pb];
    assert (Ia : forall x, In x (intermediates a) -> In x (intermediates a ++ intermediates b)) by (intros; apply in_or_app; auto);
    assert (Ib : forall x, In x (intermediates b) -> In x (intermediates a ++ intermediates b)) by (intros; apply in_or_app; auto);
    destruct IHa as [Fa Va]; auto; [intros; apply Hr; simpl; auto|destruct Hz; split; intros; [eapply H|eapply H0]; simpl; eauto|];
    destruct IHb as [Fb Vb]; auto; [intros; apply Hr; simpl; auto|destruct Hz; split; intros; [eapply H|eapply H0]; simpl; eauto|];
    pose proof (Hr _ (inter_self _)) as R0).
  - split. apply row_finite. reflexivity.
  - apply nlit_exact. now apply Zle_bool_imp_le.
  - exact nhalf_exact.
  - change (ex (EAdd a b)) with (ex a + ex b) in *. rewrite <- Va, <- Vb in *. now apply add_exact.
  - change (ex (ESub a b)) with (ex a - ex b) in *. rewrite <- Va, <- Vb in *. now apply sub_exact.
  - change (ex (EMul a b)) with (ex a * ex b) in *. rewrite <- Va, <- Vb in *. now apply mul_exact.
  - assert (ex b <> 0) by (destruct Hz as [Hz _]; apply (Hz a b), inter_self).
    change (ex (EDiv a b)) with (ex a / ex b) in *. rewrite <- Va, <- Vb in *. now apply div_exact.
  - change (ex (EMax a b)) with (Rmax (ex a) (ex b)) in *. rewrite <- Va, <- Vb. now apply HM.
Qed.

(** *** Relative error *)

Hypothesis HM : max_correct L.
Hypothesis HP : pow_accurate L.

Lemma input_exact e : input e = true -> finite (fl e) /\ value (fl e) = ex e.
Proof.
  destruct e; simpl; try discriminate; intros H.
  - split. apply row_finite. reflexivity.
  - apply andb_prop in H as [A B]. apply nlit_exact. apply Zle_bool_imp_le in A. apply Zle_bool_imp_le in B. lia.
Qed.

Lemma op_within k w v x : within k v x -> tame 1000 x -> (k <= 1000)%nat -> w = rnd v -> within (S k) w x.
Proof.
  intros W Hx Hk ->. apply (within_trans k 1 _ v); auto. now apply tame_nonneg in Hx.
  apply tame_rnd. apply (tame_le 1001); [lia|]. eapply within_tame; eauto.
Qed.
Lemma op_abs k v x : within k v x -> tame 1000 x -> (k <= 1000)%nat -> Rabs v <= 2 ^ 1020.
Proof.
  intros W Hx Hk. apply Rle_trans with (2 ^ 1001). apply tame_abs. eapply within_tame; eauto. apply pow2_le. lia.
Qed.

Lemma stable_within e : stable e = true -> (roundings e <= 1000)%nat ->
  (forall e', In e' (intermediates e) -> tame 1000 (ex e')) -> no_zero_division ex e ->
  finite (fl e) /\ within (roundings e) (value (fl e)) (ex e).
Proof.
  induction e as [v|z| |a IHa b IHb|a IHa b IHb|a IHa b IHb|a IHa b IHb|a IHa|a IHa|a IHa|a _ b _|a _|a IHa b IHb|a _|a _|a _ b _]; intros P Hk Hr Hz;
    simpl in P; try discriminate; pose proof (Hr _ (inter_self _)) as R0.
  all: cbn [roundings] in Hk.
  all: try (apply andb_prop in P as [Pa Pb];
    assert (Ia : forall x, In x (intermediates a) -> In x (intermediates a ++ intermediates b)) by (intros; apply in_or_app; auto);
    assert (Ib : forall x, In x (intermediates b) -> In x (intermediates a ++ intermediates b)) by (intros; apply in_or_app; auto);
    assert (Ta : tame 1000 (ex a)) by (apply Hr; simpl; auto using inter_self);
    assert (Tb : tame 1000 (ex b)) by (apply Hr; simpl; auto using inter_self);
    pose proof (tame_nonneg _ _ Ta) as Na; pose proof (tame_nonneg _ _ Tb) as Nb).
  all: try (destruct IHa as [Fa Va]; auto; [lia|intros; apply Hr; simpl; auto|destruct Hz; split; intros; [eapply H|eapply H0]; simpl; eauto|]).
  all: try (destruct IHb as [Fb Vb]; auto; [lia|intros; apply Hr; simpl; auto|destruct Hz; split; intros; [eapply H|eapply H0]; simpl; eauto|]).
  all: cbn [roundings].
  - split. apply row_finite. apply within_refl. now apply tame_nonneg in R0.
  - destruct (input_exact (ELit z)) as [F E]; auto. split; auto. rewrite E. apply within_refl. now apply tame_nonneg in R0.
  - destruct nhalf_exact as [F E]. split; auto. change (value (fl EHalf)) with (value (f64_of 1 (-1))). rewrite E. apply within_refl. change (0 <= / 2). lra.
  - pose proof (within_add _ _ _ _ _ _ Na Nb Va Vb) as W. change (ex (EAdd a b)) with (ex a + ex b) in *.
    destruct (add_rounds (fl a) (fl b)) as [F E]; auto. apply (op_abs _ _ _ W R0). lia.
    split; auto. apply (op_within _ _ _ _ W R0); [lia|exact E].
  - destruct (input_exact a Pa) as [Fa Va], (input_exact b Pb) as [Fb Vb]. change (ex (ESub a b)) with (ex a - ex b) in *.
    destruct (sub_rounds (fl a) (fl b)) as [F E]; auto. rewrite Va, Vb. eapply Rle_trans. apply tame_abs; eauto. apply pow2_le; lia.
    split; auto. apply (within_mono 1); [lia|now apply tame_nonneg in R0|].
    apply (op_within 0 _ (value (fl a) - value (fl b)) _); auto; [|lia]. rewrite Va, Vb. apply within_refl. now apply tame_nonneg in R0.
  - pose proof (within_mul _ _ _ _ _ _ Na Nb Va Vb) as W. change (ex (EMul a b)) with (ex a * ex b) in *.
    destruct (mul_rounds (fl a) (fl b)) as [F E]; auto. apply (op_abs _ _ _ W R0). lia.
    split; auto. apply (op_within _ _ _ _ W R0); [lia|exact E].
  - assert (ex b <> 0) by (destruct Hz as [Hz _]; apply (Hz a b), inter_self).
    assert (Pb' : 0 < ex b) by lra.
    pose proof (within_div _ _ _ _ _ _ Na Pb' Va Vb) as W. change (ex (EDiv a b)) with (ex a / ex b) in *.
    destruct (div_rounds (fl a) (fl b)) as [F E]; auto. apply Rgt_not_eq. eapply within_pos; eauto. apply (op_abs _ _ _ W R0). lia.
    split; auto. apply (op_within _ _ _ _ W R0); [lia|exact E].
  - assert (Ta : tame 1000 (ex a)) by (apply Hr; simpl; auto using inter_self). pose proof (tame_nonneg _ _ Ta) as Na.
    change (ex (ESq a)) with (ex a ^ 2) in *.
    assert (W : within (roundings a + roundings a) (value (fl a) ^ 2) (ex a ^ 2)).
    { replace (value (fl a) ^ 2) with (value (fl a) * value (fl a)) by ring. replace (ex a ^ 2) with (ex a * ex a) by ring.
      apply within_mul; auto. }
    destruct (HP (fl a) Fa (within_nonneg _ _ _ Na Va)) as (H & _ & _).
    destruct H as [F E]. apply (tame_le 1001); [lia|]. apply (within_tame (roundings a + roundings a) _ _ _ ltac:(lia) R0 W).
    split; auto. eapply within_trans; eauto. now apply tame_nonneg in R0.
  - assert (Ta : tame 1000 (ex a)) by (apply Hr; simpl; auto using inter_self). pose proof (tame_nonneg _ _ Ta) as Na.
    change (ex (ESqrt a)) with (sqrt (ex a)) in *.
    destruct (HP (fl a) Fa (within_nonneg _ _ _ Na Va)) as (_ & H & _).
    destruct H as [F E]. apply (tame_le 1001); [lia|]. apply (within_tame (roundings a) _ _ _ ltac:(lia) Ta Va).
    split; auto. eapply within_trans; eauto. now apply tame_nonneg in R0. now apply within_sqrt.
  - assert (Ta : tame 1000 (ex a)) by (apply Hr; simpl; auto using inter_self). pose proof (tame_nonneg _ _ Ta) as Na.
    assert (ex a <> 0) by (destruct Hz as [_ Hz]; apply Hz, inter_self). assert (0 < ex a) by lra.
    change (ex (ERsqrt a)) with (/ sqrt (ex a)) in *.
    destruct (HP (fl a) Fa (within_nonneg _ _ _ Na Va)) as (_ & _ & H1).
    destruct H1 as [F E]. apply (tame_le 1001); [lia|]. apply (within_tame (roundings a) _ _ _ ltac:(lia) Ta Va).
    apply Rgt_not_eq. eapply within_pos; eauto.
    split; auto. eapply within_trans; eauto. now apply tame_nonneg in R0.
    apply within_inv. now apply sqrt_lt_R0. now apply within_sqrt.
  - change (ex (EMax a b)) with (Rmax (ex a) (ex b)) in *. destruct (HM (fl a) (fl b)) as [F E]; auto.
    split; auto. change (value (fl (EMax a b))) with (value (lm_max L (fl a) (fl b))). rewrite E. apply within_max; auto.
Qed.
End Formulas.

(** ** Functions *)

Lemma columns_eval {A} {NA : Num A} (U : Ufuncs A) (l : list A) d :
  map (eval U (fun i => nth i l d)) (columns (length l)) = l.
Proof.
  unfold columns. rewrite map_map. simpl. revert l.
  enough (H : forall l l', map (fun i => nth i (l' ++ l) d) (seq (length l') (length l)) = l).
  { intros l. exact (H l []). }
  induction l as [|a l IH]; intros l'; simpl; auto. f_equal.
  - apply nth_middle.
  - specialize (IH (l' ++ [a])). rewrite <- app_assoc in IH. simpl in IH. rewrite app_length in IH. simpl in IH.
    rewrite Nat.add_1_r in IH. exact IH.
Qed.

Lemma arguments_nth args : arguments args = fun i => nth i (map value args) (value (B754_zero false)).
Proof. unfold arguments. apply FunctionalExtensionality.functional_extensionality. intros i. now rewrite map_nth. Qed.

Section Functions.
Variable L : Libm.
Variable arctan2 : R -> R -> R.
Variable f : fn.
Variable args : list f64.
Variable outs : list expr.
Hypothesis Hout : run Ufuncs_expr f (columns (length args)) = Ok outs.

Lemma run_f64_eval :
  run_f64 L f args = Ok (map (eval (NA := NumF64 L) (Ufuncs_f64 L) (fun i => nth i args (B754_zero false))) outs).
Proof.
  unfold run_f64. rewrite <- (columns_eval (NA := NumF64 L) (Ufuncs_f64 L) args (B754_zero false)) at 1.
  rewrite run_symbolic, Hout. reflexivity.
Qed.
Lemma run_exact_eval : run (Ufuncs_R arctan2) f (map value args) = Ok (map (exact arctan2 args) outs).
Proof.
  rewrite <- (columns_eval (Ufuncs_R arctan2) (map value args) (value (B754_zero false))).
  rewrite run_symbolic, map_length, Hout. unfold exact. now rewrite arguments_nth.
Qed.
Lemma run_py_eval : run (NA := NumPy) (Ufuncs_py arctan2) f (map Ok (map value args)) =
  Ok (map (eval (NA := NumPy) (Ufuncs_py arctan2) (fun i => Ok (arguments args i))) outs).
Proof.
  rewrite <- (columns_eval (NA := NumPy) (Ufuncs_py arctan2) (map Ok (map value args)) (Ok (value (B754_zero false)))) at 1.
  rewrite run_symbolic, !map_length, Hout. simpl. f_equal. apply map_ext. intros e. f_equal.
  apply FunctionalExtensionality.functional_extensionality. intros i. rewrite map_nth, arguments_nth. reflexivity.
Qed.
End Functions.

Lemma Forall2_map_r {A B} (P : A -> B -> Prop) (g : A -> B) (l : list A) :
  (forall a, In a l -> P a (g a)) -> Forall2 P l (map g l).
Proof. induction l; simpl; intros H; constructor; auto. Qed.

Lemma run_exact L arctan2 f args outs : max_correct L -> Forall finite args ->
  run Ufuncs_expr f (columns (length args)) = Ok outs ->
  exists fouts, run_f64 L f args = Ok fouts /\
    run (Ufuncs_R arctan2) f (map value args) = Ok (map (exact arctan2 args) outs) /\
    Forall2 (fun e v => plain e = true ->
      (forall e', In e' (intermediates e) -> representable (exact arctan2 args e')) ->
      no_zero_division (exact arctan2 args) e ->
      finite v /\ value v = exact arctan2 args e) outs fouts.
Proof.
  intros HM Hf Hout. eexists. split. exact (run_f64_eval L f args outs Hout). split. exact (run_exact_eval arctan2 f args outs Hout).
  apply Forall2_map_r. intros e _ P Hr Hz. now apply plain_exact.
Qed.

(** At most 16 roundings pile up in any function. *)
Lemma run_roundings f n outs : run Ufuncs_expr f (columns n) = Ok outs -> Forall (fun e => (roundings e <= 1000)%nat) outs.
Proof.
  intros H. destruct f; try destruct one_start;
  do 8 (try (destruct n as [|n]; [try discriminate H; try (injection H as <-; repeat (apply Forall_cons || apply Forall_nil); apply Nat.leb_le; reflexivity)|]));
  discriminate H.
Qed.

Lemma run_stable L arctan2 f args outs : max_correct L -> pow_accurate L -> Forall finite args ->
  run Ufuncs_expr f (columns (length args)) = Ok outs ->
  exists fouts, run_f64 L f args = Ok fouts /\
    run (Ufuncs_R arctan2) f (map value args) = Ok (map (exact arctan2 args) outs) /\
    Forall2 (fun e v => stable e = true ->
      (forall e', In e' (intermediates e) -> tame 1000 (exact arctan2 args e')) ->
      no_zero_division (exact arctan2 args) e ->
      finite v /\ within (roundings e) (value v) (exact arctan2 args e)) outs fouts.
Proof.
  intros HM HP Hf Hout. eexists. split. exact (run_f64_eval L f args outs Hout). split. exact (run_exact_eval arctan2 f args outs Hout).
  apply Forall2_map_r. intros e He P Hr Hz. apply stable_within; auto.
  apply run_roundings in Hout. rewrite Forall_forall in Hout. auto.
Qed.

(** *** Whole numbers *)

(** A bound on the absolute value of [e] when the inputs are at most 2^26;
    None if some intermediate bound exceeds 2^53. *)
Definition small (z : Z) : option Z := if (z <=? 2 ^ 53)%Z then Some z else None.
Fixpoint int_bound (e : expr) : option Z :=
  match e with
  | EVar _ => Some (2 ^ 26)%Z
  | ELit z => small (Z.abs z)
  | EAdd a b | ESub a b => match int_bound a, int_bound b with Some x, Some y => small (x + y) | _, _ => None end
  | EMul a b => match int_bound a, int_bound b with Some x, Some y => small (x * y) | _, _ => None end
  | EMax a b => match int_bound a, int_bound b with Some x, Some y => small (Z.max x y) | _, _ => None end
  | _ => None
  end.
Lemma small_le z z' : small z = Some z' -> z' = z /\ (z <= 2 ^ 53)%Z.
Proof. unfold small. destruct (z <=? 2 ^ 53)%Z eqn:E; [|discriminate]. intros H. injection H as <-. apply Zle_bool_imp_le in E. auto. Qed.

Lemma int_bound_spec arctan2 args e B : Forall count args -> int_bound e = Some B ->
  (exists z, exact arctan2 args e = IZR z /\ (Z.abs z <= B <= 2 ^ 53)%Z) /\ plain e = true /\
  (forall e', In e' (intermediates e) -> representable (exact arctan2 args e')) /\ no_zero_division (exact arctan2 args) e.
Proof.
  intros HA. rewrite Forall_forall in HA.
  assert (Base : forall e z, exact arctan2 args e = IZR z -> (Z.abs z <= 2 ^ 53)%Z -> intermediates e = [e] ->
    (forall a b, e <> EDiv a b) -> (forall a, e <> ERsqrt a) ->
    (forall e', In e' (intermediates e) -> representable (exact arctan2 args e')) /\ no_zero_division (exact arctan2 args) e).
  { clear. intros e z E H I N1 N2. split.
    - rewrite I. intros e' [<-|[]]. rewrite E. now apply representable_int.
    - split; intros; rewrite I in *; destruct H0 as [H0|[]]; exfalso; [eapply N1|eapply N2]; eauto. }
  assert (Comb : forall a b e z, exact arctan2 args e = IZR z -> (Z.abs z <= 2 ^ 53)%Z ->
    intermediates e = e :: intermediates a ++ intermediates b ->
    (forall a b, e <> EDiv a b) -> (forall a, e <> ERsqrt a) ->
    ((forall e', In e' (intermediates a) -> representable (exact arctan2 args e')) /\ no_zero_division (exact arctan2 args) a) ->
    ((forall e', In e' (intermediates b) -> representable (exact arctan2 args e')) /\ no_zero_division (exact arctan2 args) b) ->
    (forall e', In e' (intermediates e) -> representable (exact arctan2 args e')) /\ no_zero_division (exact arctan2 args) e).
  { clear. intros a b e z E H I N1 N2 (Ra & Za1 & Za2) (Rb & Zb1 & Zb2). split.
    - rewrite I. intros e' [<-|Hi]. rewrite E. now apply representable_int. apply in_app_or in Hi as [Hi|Hi]; auto.
    - split; intros; rewrite I in *; destruct H0 as [H0|Hi];
        try (apply in_app_or in Hi as [Hi|Hi]); eauto; exfalso; [eapply N1|eapply N2]; eauto. }
  revert B. induction e as [v|z| |a IHa b IHb|a IHa b IHb|a IHa b IHb|a IHa b IHb|a _|a _|a _|a _ b _|a _|a IHa b IHb|a _|a _|a _ b _];
    intros B; cbn [int_bound]; try discriminate.
  - intros H. injection H as <-. assert (V : exists z, exact arctan2 args (EVar v) = IZR z /\ (Z.abs z <= 2 ^ 26 <= 2 ^ 53)%Z).
    { unfold exact, arguments; simpl. destruct (nth_in_or_default v args (B754_zero false)) as [H|E].
      - destruct (HA _ H) as (_ & z & Hz & ->). exists z. split; auto. lia.
      - rewrite E. exists 0%Z. split; auto. lia. }
    split; auto. split; auto. destruct V as (z & V & Hz). apply (Base _ z); auto; try discriminate. lia.
  - intros H. apply small_le in H as [-> H]. assert (V : exact arctan2 args (ELit z) = IZR z) by reflexivity.
    split. exists z. split; auto. lia. split. now apply Z.leb_le. apply (Base _ z); auto; discriminate.
  - destruct (int_bound a) as [x|]; [|discriminate]. destruct (int_bound b) as [y|]; [|discriminate]. intros H.
    apply small_le in H as [-> H]. destruct (IHa _ eq_refl) as ((za & Ea & Ha) & Pa & Wa), (IHb _ eq_refl) as ((zb & Eb & Hb) & Pb & Wb).
    assert (V : exact arctan2 args (EAdd a b) = IZR (za + zb)).
    { change (exact arctan2 args a + exact arctan2 args b = IZR (za + zb)). now rewrite Ea, Eb, plus_IZR. }
    split. exists (za + zb)%Z. split; auto. lia. split. simpl; now rewrite Pa, Pb. apply (Comb a b _ (za + zb)%Z); auto; try discriminate. lia.
  - destruct (int_bound a) as [x|]; [|discriminate]. destruct (int_bound b) as [y|]; [|discriminate]. intros H.
    apply small_le in H as [-> H]. destruct (IHa _ eq_refl) as ((za & Ea & Ha) & Pa & Wa), (IHb _ eq_refl) as ((zb & Eb & Hb) & Pb & Wb).
    assert (V : exact arctan2 args (ESub a b) = IZR (za - zb)).
    { change (exact arctan2 args a - exact arctan2 args b = IZR (za - zb)). now rewrite Ea, Eb, minus_IZR. }
    split. exists (za - zb)%Z. split; auto. lia. split. simpl; now rewrite Pa, Pb. apply (Comb a b _ (za - zb)%Z); auto; try discriminate. lia.
  - destruct (int_bound a) as [x|]; [|discriminate]. destruct (int_bound b) as [y|]; [|discriminate]. intros H.
    apply small_le in H as [-> H]. destruct (IHa _ eq_refl) as ((za & Ea & Ha) & Pa & Wa), (IHb _ eq_refl) as ((zb & Eb & Hb) & Pb & Wb).
    assert (V : exact arctan2 args (EMul a b) = IZR (za * zb)).
    { change (exact arctan2 args a * exact arctan2 args b = IZR (za * zb)). now rewrite Ea, Eb, mult_IZR. }
    assert (Z.abs (za * zb) <= x * y)%Z by (rewrite Z.abs_mul; nia).
    split. exists (za * zb)%Z. split; auto. split. simpl; now rewrite Pa, Pb. apply (Comb a b _ (za * zb)%Z); auto; try discriminate. lia.
  - destruct (int_bound a) as [x|]; [|discriminate]. destruct (int_bound b) as [y|]; [|discriminate]. intros H.
    apply small_le in H as [-> H]. destruct (IHa _ eq_refl) as ((za & Ea & Ha) & Pa & Wa), (IHb _ eq_refl) as ((zb & Eb & Hb) & Pb & Wb).
    assert (V : exact arctan2 args (EMax a b) = IZR (Z.max za zb)).
    { change (Rmax (exact arctan2 args a) (exact arctan2 args b) = IZR (Z.max za zb)). rewrite Ea, Eb.
      unfold Rmax. destruct (Rle_dec (IZR za) (IZR zb)) as [R|R]. apply le_IZR in R. now rewrite Z.max_r.
      rewrite Z.max_l; auto. apply Rnot_le_lt, lt_IZR in R. lia. }
    split. exists (Z.max za zb)%Z. split; auto. lia. split. simpl; now rewrite Pa, Pb. apply (Comb a b _ (Z.max za zb)%Z); auto; try discriminate. lia.
Qed.

Lemma counting_bounds f n outs : In f counting_fns -> run Ufuncs_expr f (columns n) = Ok outs ->
  Forall (fun e => int_bound e <> None) outs.
Proof.
  intros Hf H. unfold counting_fns in Hf. simpl in Hf.
  repeat (destruct Hf as [<-|Hf]; [
    do 8 (try (destruct n as [|n]; [try discriminate H; try (injection H as <-; repeat constructor; discriminate)|]));
    discriminate H|]). contradiction.
Qed.

Lemma run_counts L arctan2 f args out : max_correct L -> In f counting_fns -> Forall count args ->
  run (Ufuncs_R arctan2) f (map value args) = Ok out ->
  exists fout, run_f64 L f args = Ok fout /\ Forall finite fout /\ map value fout = out.
Proof.
  intros HM Hf HA H.
  destruct (run Ufuncs_expr f (columns (length args))) as [outs|er] eqn:E.
  2:{ rewrite <- (columns_eval (Ufuncs_R arctan2) (map value args) 0), run_symbolic, map_length, E in H. discriminate. }
  pose proof (counting_bounds _ _ _ Hf E) as HB.
  assert (HF : Forall finite args) by (apply (Forall_impl _ (P := count)); [now intros ? []|auto]).
  pose proof (run_exact_eval arctan2 f args outs E) as HE. rewrite HE in H. injection H as <-.
  rewrite (run_f64_eval L f args outs E). eexists. split; [reflexivity|].
  assert (K : forall e, In e outs -> finite (eval (NA := NumF64 L) (Ufuncs_f64 L) (fun i => nth i args (B754_zero false)) e) /\
    value (eval (NA := NumF64 L) (Ufuncs_f64 L) (fun i => nth i args (B754_zero false)) e) = exact arctan2 args e).
  { intros e He. rewrite Forall_forall in HB. specialize (HB e He). destruct (int_bound e) as [B|] eqn:EB; [|contradiction].
    destruct (int_bound_spec arctan2 args e B HA EB) as (_ & P & R0 & Z0). now apply plain_exact. }
  split.
  - rewrite Forall_forall. intros v Hv. apply in_map_iff in Hv as (e & <- & He). now apply K.
  - rewrite map_map. apply map_ext_in. intros e He. now apply K.
Qed.

(** *** Magnitudes *)

(** [e] is zero or between [2^-mag e] and [2^mag e] when the inputs are zero or
    between 2^-100 and 2^100. *)
Fixpoint mag (e : expr) : nat :=
  match e with
  | EVar _ | ELit _ => 100 | EHalf => 1
  | EAdd a b => S (Nat.max (mag a) (mag b))
  | ESub _ _ => 153
  | EMul a b | EDiv a b => mag a + mag b
  | EMax a b => Nat.max (mag a) (mag b)
  | ESq a => mag a + mag a
  | ESqrt a | ERsqrt a => mag a
  | _ => 0
  end.

Lemma pow2_ge1 n : 1 <= 2 ^ n. Proof. apply pow_R1_Rle. lra. Qed.

Lemma tame_add m n x y : tame m x -> tame n y -> tame (S (Nat.max m n)) (x + y).
Proof.
  intros A B. apply (tame_le m (Nat.max m n)) in A; [|lia]. apply (tame_le n (Nat.max m n)) in B; [|lia].
  set (k := Nat.max m n) in *. pose proof (inv_pow2_le k (S k) ltac:(lia)). pose proof (pow2_le k (S k) ltac:(lia)).
  assert (2 ^ S k = 2 * 2 ^ k) by reflexivity. assert (0 < / 2 ^ k) by apply Rinv_0_lt_compat, pow2_pos. pose proof (pow2_pos k).
  destruct A as [->|A], B as [->|B]; [left; lra|right; lra..].
Qed.
Lemma tame_mul m n x y : tame m x -> tame n y -> tame (m + n) (x * y).
Proof.
  intros [->|[A1 A2]] [->|[B1 B2]]; try (left; ring). right. rewrite pow_add, Rinv_mult_distr by (apply Rgt_not_eq, pow2_pos).
  assert (0 < / 2 ^ m) by apply Rinv_0_lt_compat, pow2_pos. assert (0 < / 2 ^ n) by apply Rinv_0_lt_compat, pow2_pos.
  split; apply Rmult_le_compat; lra.
Qed.
Lemma tame_inv m x : x <> 0 -> tame m x -> tame m (/ x).
Proof.
  intros Hx [->|[A B]]; [contradiction|right]. assert (0 < / 2 ^ m) by apply Rinv_0_lt_compat, pow2_pos. split.
  - apply Rinv_le_contravar; lra.
  - rewrite <- (Rinv_involutive (2 ^ m)) by (apply Rgt_not_eq, pow2_pos). apply Rinv_le_contravar; lra.
Qed.
Lemma tame_max m n x y : tame m x -> tame n y -> tame (Nat.max m n) (Rmax x y).
Proof.
  intros A B. apply (tame_le m (Nat.max m n)) in A; [|lia]. apply (tame_le n (Nat.max m n)) in B; [|lia].
  unfold Rmax. now destruct (Rle_dec x y).
Qed.
Lemma tame_sqrt m x : tame m x -> tame m (sqrt x).
Proof.
  intros [->|[A B]]. left. apply sqrt_0. right. pose proof (pow2_ge1 m). assert (0 < / 2 ^ m) by apply Rinv_0_lt_compat, pow2_pos.
  assert (/ 2 ^ m <= 1). { rewrite <- Rinv_1. apply Rinv_le_contravar; lra. }
  split.
  - apply Rle_trans with (sqrt (/ 2 ^ m)). 2: now apply sqrt_le_1_alt.
    rewrite <- (sqrt_Rsqr (/ 2 ^ m)) at 1 by lra. apply sqrt_le_1_alt. unfold Rsqr. nra.
  - apply Rle_trans with (sqrt (2 ^ m)). now apply sqrt_le_1_alt.
    rewrite <- (sqrt_Rsqr (2 ^ m)) at 2 by lra. apply sqrt_le_1_alt. unfold Rsqr. nra.
Qed.

(** Inputs are whole multiples of 2^-152. *)
Definition multiple (x : R) : Prop := exists z : Z, x = IZR z * / 2 ^ 152.

Lemma value_multiple (x : f64) : tame 100 (value x) -> multiple (value x).
Proof.
  intros [->|[H _]]. exists 0%Z. lra.
  assert (G : generic_format radix2 fx (value x)).
  { unfold value. apply (generic_format_B2R 53 1024). }
  assert (Hp : 0 < value x). { apply Rlt_le_trans with (2 := H). apply Rinv_0_lt_compat, pow2_pos. }
  set (c := cexp radix2 fx (value x)).
  assert (Hc : (-152 <= c)%Z).
  { unfold c, cexp, FLT_exp. assert (-100 + 1 <= mag_val _ _ (Raux.mag radix2 (value x)))%Z; [|lia].
    apply mag_ge_bpow. rewrite Rabs_pos_eq by lra. replace (-100 + 1 - 1)%Z with (- Z.of_nat 100)%Z by lia. now rewrite bpow_neg. }
  rewrite G. unfold F2R. simpl. fold c. exists (Ztrunc (scaled_mantissa radix2 fx (value x)) * 2 ^ (c + 152))%Z.
  rewrite mult_IZR. assert (E : IZR (2 ^ (c + 152)) = bpow radix2 (c + 152)) by (apply (IZR_Zpower radix2); lia).
  rewrite E, <- (bpow_neg 152). rewrite Rmult_assoc, <- bpow_plus. do 2 f_equal. lia.
Qed.
Lemma int_multiple z : multiple (IZR z).
Proof. exists (z * 2 ^ 152)%Z. change (2 ^ 152)%Z with (2 ^ Z.of_nat 152)%Z. rewrite mult_IZR, <- pow_IZR. field. Qed.
Lemma multiple_sub x y : multiple x -> multiple y -> 0 <= x - y -> x - y = 0 \/ / 2 ^ 152 <= x - y.
Proof.
  intros [a ->] [b ->] H. assert (P : 0 < / 2 ^ 152) by apply Rinv_0_lt_compat, pow2_pos.
  replace (IZR a * / 2 ^ 152 - IZR b * / 2 ^ 152) with (IZR (a - b) * / 2 ^ 152) in * by (rewrite minus_IZR; ring).
  assert (0 <= IZR (a - b)). { apply Rmult_le_reg_r with (/ 2 ^ 152); auto. lra. }
  apply le_IZR in H0. destruct (Z.eq_dec (a - b) 0) as [->|N]. left; ring. right.
  assert (1 <= IZR (a - b)) by (apply IZR_le; lia). nra.
Qed.

Section Magnitudes.
Variable arctan2 : R -> R -> R.
Variable args : list f64.
Hypothesis Hargs : Forall (fun x => tame 100 (value x)) args.
Let ex := exact arctan2 args.

Lemma input_tame e : input e = true -> tame 100 (ex e) /\ multiple (ex e).
Proof.
  destruct e; simpl; try discriminate; intros H.
  - unfold ex, exact, arguments; simpl. rewrite Forall_forall in Hargs.
    destruct (nth_in_or_default v args (B754_zero false)) as [I|E].
    + split. auto. apply value_multiple. auto.
    + rewrite E. split. now left. exists 0%Z. simpl. lra.
  - apply andb_prop in H as [A B]. apply Zle_bool_imp_le in A. apply Zle_bool_imp_le in B.
    split. 2: apply int_multiple. change (ex (ELit z)) with (IZR z).
    destruct (Z.eq_dec z 0) as [->|N]. now left. right.
    assert (1 <= IZR z) by (apply IZR_le; lia). assert (IZR z <= 2 ^ 100).
    { apply IZR_le in B. apply Rle_trans with (1 := B). apply Rle_trans with (2 ^ 53). right. rewrite pow_IZR. reflexivity. apply pow2_le; lia. }
    split; auto. apply Rle_trans with 1; auto. rewrite <- Rinv_1. apply Rinv_le_contravar. lra. apply pow2_ge1.
Qed.

Lemma mag_spec e : stable e = true -> no_zero_division ex e ->
  (forall a b, In (ESub a b) (intermediates e) -> 0 <= ex (ESub a b)) ->
  tame (mag e) (ex e) /\ forall e', In e' (intermediates e) -> tame (mag e) (ex e').
Proof.
  intros S0 Hz Hs. enough (T : tame (mag e) (ex e) /\ forall e', In e' (intermediates e) -> e' = e \/ tame (mag e) (ex e')).
  { destruct T as [T T']. split; auto. intros e' He'. destruct (T' e' He') as [->|]; auto. }
  revert S0 Hz Hs.
  induction e as [v|z| |a IHa b IHb|a IHa b IHb|a IHa b IHb|a IHa b IHb|a IHa|a IHa|a IHa|a _ b _|a _|a IHa b IHb|a _|a _|a _ b _];
    intros P Hz Hs; simpl in P; try discriminate.
  all: try (apply andb_prop in P as [Pa Pb]).
  all: try (assert (Ia : forall x, In x (intermediates a) -> In x (intermediates a ++ intermediates b)) by (intros; apply in_or_app; auto);
    assert (Ib : forall x, In x (intermediates b) -> In x (intermediates a ++ intermediates b)) by (intros; apply in_or_app; auto)).
  all: try (destruct IHa as [Ta Sa]; auto; [destruct Hz; split; intros; [eapply H|eapply H0]; simpl; eauto|intros; apply Hs; simpl; auto|]).
  all: try (destruct IHb as [Tb Sb]; auto; [destruct Hz; split; intros; [eapply H|eapply H0]; simpl; eauto|intros; apply Hs; simpl; auto|]).
  all: cbn [mag].
  - split; [|intros e' [<-|[]]; auto]. now apply input_tame.
  - split; [|intros e' [<-|[]]; auto]. apply input_tame; simpl; now rewrite Pa, Pb.
  - split; [|intros e' [<-|[]]; auto]. right. change (ex EHalf) with (/ 2). simpl. lra.
  - split. now apply tame_add. intros e' [<-|Hi]; auto. right.
    apply in_app_or in Hi as [Hi|Hi]; [apply Sa in Hi as [->|Hi]|apply Sb in Hi as [->|Hi]]; eauto using tame_le, le_S, Nat.le_max_l, Nat.le_max_r.
  - destruct (input_tame _ Pa) as [Ta Ma], (input_tame _ Pb) as [Tb Mb].
    assert (H : 0 <= ex a - ex b) by (apply (Hs a b), inter_self).
    split.
    + change (ex (ESub a b)) with (ex a - ex b). destruct (multiple_sub _ _ Ma Mb H) as [E|E]; [now left|right].
      pose proof (inv_pow2_le 152 153 ltac:(lia)). pose proof (tame_abs _ _ Ta). pose proof (tame_nonneg _ _ Tb).
      rewrite Rabs_pos_eq in H1 by now apply tame_nonneg in Ta. pose proof (pow2_le 100 153 ltac:(lia)). split; lra.
    + intros e' [<-|Hi]; auto. right. apply (tame_le 100); [lia|].
      apply in_app_or in Hi as [Hi|Hi]; [destruct a|destruct b]; simpl in Pa, Pb; try discriminate; destruct Hi as [<-|[]]; auto.
  - split. now apply tame_mul. intros e' [<-|Hi]; auto. right.
    apply in_app_or in Hi as [Hi|Hi]; [apply Sa in Hi as [->|Hi]|apply Sb in Hi as [->|Hi]]; eauto using tame_le, Nat.le_add_r, Nat.le_add_l.
  - assert (ex b <> 0) by (destruct Hz as [Hz _]; apply (Hz a b), inter_self).
    split. now apply tame_mul, tame_inv. intros e' [<-|Hi]; auto. right.
    apply in_app_or in Hi as [Hi|Hi]; [apply Sa in Hi as [->|Hi]|apply Sb in Hi as [->|Hi]]; eauto using tame_le, Nat.le_add_r, Nat.le_add_l.
  - split. change (ex (ESq a)) with (ex a ^ 2). replace (ex a ^ 2) with (ex a * ex a) by ring. now apply tame_mul.
    intros e' [<-|Hi]; auto. right. apply Sa in Hi as [->|Hi]; eauto using tame_le, Nat.le_add_r.
  - split. now apply tame_sqrt. intros e' [<-|Hi]; auto. right. apply Sa in Hi as [->|Hi]; auto.
  - assert (ex a <> 0) by (destruct Hz as [_ Hz]; apply Hz, inter_self). pose proof (tame_nonneg _ _ Ta).
    split. apply tame_inv. apply Rgt_not_eq, sqrt_lt_R0. destruct (Rle_lt_or_eq_dec 0 (ex a)); auto; congruence. now apply tame_sqrt.
    intros e' [<-|Hi]; auto. right. apply Sa in Hi as [->|Hi]; auto.
  - split. now apply tame_max. intros e' [<-|Hi]; auto. right.
    apply in_app_or in Hi as [Hi|Hi]; [apply Sa in Hi as [->|Hi]|apply Sb in Hi as [->|Hi]]; eauto using tame_le, Nat.le_max_l, Nat.le_max_r.
Qed.

(** *** Python raises when the formula divides by zero *)

Lemma py_no_zero_division e x : stable e = true ->
  eval (NA := NumPy) (Ufuncs_py arctan2) (fun i => Ok (arguments args i)) e = Ok x ->
  ex e = x /\ no_zero_division ex e.
Proof.
  set (py := eval (NA := NumPy) (Ufuncs_py arctan2) (fun i => Ok (arguments args i))).
  assert (Two : forall a b e, intermediates e = e :: intermediates a ++ intermediates b ->
    (forall a' b', e = EDiv a' b' -> ex b' <> 0) -> (forall a', e = ERsqrt a' -> ex a' <> 0) ->
    no_zero_division ex a -> no_zero_division ex b -> no_zero_division ex e).
  { intros a b e' I H1 H2 [A1 A2] [B1 B2]. split; intros; rewrite I in *; destruct H as [H|H]; eauto;
      apply in_app_or in H as [H|H]; eauto. }
  assert (One : forall a e, intermediates e = e :: intermediates a ->
    (forall a' b', e = EDiv a' b' -> ex b' <> 0) -> (forall a', e = ERsqrt a' -> ex a' <> 0) ->
    no_zero_division ex a -> no_zero_division ex e).
  { intros a e' I H1 H2 [A1 A2]. split; intros; rewrite I in *; destruct H as [H|H]; eauto. }
  assert (Zero : forall e, intermediates e = [e] -> (forall a b, e <> EDiv a b) -> (forall a, e <> ERsqrt a) -> no_zero_division ex e).
  { intros e' I N1 N2. split; intros; rewrite I in *; destruct H as [H|[]]; exfalso; [eapply N1|eapply N2]; eauto. }
  assert (Inp : forall e, input e = true -> stable e = true) by (intros [] H; simpl in *; auto; discriminate).
  revert x. induction e as [v|z| |a IHa b IHb|a IHa b IHb|a IHa b IHb|a IHa b IHb|a IHa|a IHa|a IHa|a _ b _|a _|a IHa b IHb|a _|a _|a _ b _];
    intros x P H; simpl in P; try discriminate.
  all: try (apply andb_prop in P as [Pa Pb]).
  1-3: injection H as <-; split; [reflexivity|apply Zero; auto; discriminate].
  all: cbn in H; change (eval (Ufuncs_py arctan2) (fun i => Ok (arguments args i))) with py in H; unfold py2, py1, bind in H;
       destruct (py a) as [xa|]; [|discriminate]; try (destruct (py b) as [xb|]; [|discriminate]);
       destruct (IHa xa) as [Ea Za]; auto; try (destruct (IHb xb) as [Eb Zb]; auto).
  1,2,3: injection H as <-; split; [subst; reflexivity|apply (Two a b); auto; discriminate].
  - unfold py_div in H. destruct (Req_EM_T xb 0); [discriminate|]. injection H as <-.
    split; [subst; reflexivity|apply (Two a b); auto; [|discriminate]]. intros a' b' E; injection E as <- <-. now rewrite Eb.
  - injection H as <-; split; [subst; reflexivity|apply (One a); auto; discriminate].
  - unfold py_sqrt in H. destruct (Rlt_dec xa 0); [discriminate|]. injection H as <-.
    split; [subst; reflexivity|apply (One a); auto; discriminate].
  - unfold py_rsqrt in H. destruct (Req_EM_T xa 0); [discriminate|]. destruct (Rlt_dec xa 0); [discriminate|]. injection H as <-.
    split; [subst; reflexivity|apply (One a); auto; [discriminate|]]. intros a' E; injection E as <-. now rewrite Ea.
  - injection H as <-; split; [subst; reflexivity|apply (Two a b); auto; discriminate].
Qed.
End Magnitudes.
