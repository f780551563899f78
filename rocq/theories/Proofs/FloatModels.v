(** The library's functions in binary64: relative errors, validity, sequences, counterexamples. *)

From Coq Require Import ZArith Bool Reals Lra Lia Psatz.
From Flocq Require Import Core BinarySingleNaN Relative.
From Verif Require Import Model.Num Model.Py Model.Dists Model.Models Model.Table Model.Symbolic Model.PyNum Model.Float64.
From Verif Require Import Spec.Bayes Spec.Floating Proofs.Param Proofs.PyNum Proofs.Floating.
From Coq Require Import List.
Import ListNotations.
Open Scope R_scope.

(** ** Error in percent *)

Lemma within_error k v x : (k <= 16)%nat -> 0 <= x -> within k v x -> Rabs (v - x) <= / 2 ^ 48 * x.
Proof.
  intros Hk Hx W. apply (within_mono k 16) in W; auto. destruct W as [A B].
  pose proof (c_bernoulli 16) as C. replace (INR 16) with 16 in C by (simpl; lra).
  assert (Hu : 32 * u = / 2 ^ 48) by (unfold u; simpl; lra). pose proof u_pos. pose proof (c_pos 16) as P.
  assert (Hi : / (1 - u) ^ 16 <= 1 + 32 * u).
  { apply Rmult_le_reg_l with ((1 - u) ^ 16); auto. rewrite Rinv_r by (apply Rgt_not_eq; auto).
    assert (u <= / 64). { unfold u. replace 64 with (2 ^ 6) by (simpl; lra). apply inv_pow2_le. lia. }
    assert ((1 - 16 * u) * (1 + 32 * u) <= (1 - u) ^ 16 * (1 + 32 * u)) by (apply Rmult_le_compat_r; lra). nra. }
  rewrite <- Hu. apply Rabs_le. unfold Rdiv in B. split; nra.
Qed.

Lemma run_long f (l : list expr) : (8 <= length l)%nat -> run Ufuncs_expr f l = arity_error.
Proof.
  intros H. do 8 (destruct l as [|? l]; [exfalso; simpl in H; lia|]). destruct f; reflexivity.
Qed.
Lemma shapes_checked : forallb (fun f => forallb (fun n => match run Ufuncs_expr f (columns n) with
    | Ok outs => forallb (fun e => stable e && (roundings e <=? 16)%nat && (mag e <=? 1000)%nat) outs
    | Raise _ => true end) (seq 0 8)) stable_fns = true.
Proof. vm_compute. reflexivity. Qed.
Lemma stable_shape f n outs : In f stable_fns -> run Ufuncs_expr f (columns n) = Ok outs ->
  Forall (fun e => stable e = true /\ (roundings e <= 16)%nat /\ (mag e <= 1000)%nat) outs.
Proof.
  intros Hf H. destruct (le_lt_dec 8 n) as [L|L].
  { rewrite run_long in H; [discriminate H|]. unfold columns. now rewrite map_length, seq_length. }
  pose proof shapes_checked as G. rewrite forallb_forall in G. specialize (G f Hf). rewrite forallb_forall in G.
  specialize (G n ltac:(apply in_seq; lia)). rewrite H in G. rewrite forallb_forall in G. apply Forall_forall. intros e He.
  specialize (G e He). apply andb_true_iff in G. destruct G as [G M]. apply andb_true_iff in G. destruct G as [S R].
  apply Nat.leb_le in R, M. auto.
Qed.

(** The only subtractions are those of [ordered]. *)
Lemma stable_ordered arctan2 f args outs : In f stable_fns -> ordered f (map value args) ->
  run Ufuncs_expr f (columns (length args)) = Ok outs ->
  Forall (fun e => forall a b, In (ESub a b) (intermediates e) -> 0 <= exact arctan2 args (ESub a b)) outs.
Proof.
  intros Hf Ho H. unfold stable_fns in Hf. simpl in Hf.
  repeat (destruct Hf as [<-|Hf]; [
    do 8 (try (destruct args as [|? args]; [try discriminate H; try (injection H as <-; repeat apply Forall_cons; try apply Forall_nil; intros a b Hin;
      simpl in Hin; repeat match type of Hin with _ \/ _ => destruct Hin as [Hin|Hin]; try discriminate Hin end;
      try contradiction; try (injection Hin as <- <-; simpl in Ho; unfold exact, arguments; simpl; lra))|]));
    discriminate H|]). contradiction.
Qed.

Lemma sequence_Ok {A} (l : list (res A)) out : sequence l = Ok out -> Forall2 (fun r x => r = Ok x) l out.
Proof.
  revert out. induction l as [|r l IH]; simpl; intros out H. injection H as <-. constructor.
  destruct r as [x|]; [|discriminate]. simpl in H. destruct (sequence l) as [xs|]; [|discriminate]. injection H as <-.
  constructor; auto.
Qed.

Lemma run_models L arctan2 f args out : max_correct L -> pow_accurate L -> In f stable_fns ->
  Forall (fun x => finite x /\ tame 100 (value x)) args -> ordered f (map value args) ->
  run_py arctan2 f (map value args) = Ok out ->
  exists fout, run_f64 L f args = Ok fout /\
    Forall2 (fun v x => finite v /\ Rabs (value v - x) <= / 2 ^ 48 * x /\ (0 < x -> 0 < value v)) fout out.
Proof.
  intros HM HP Hf HA Ho H.
  assert (HF : Forall finite args) by (apply (Forall_impl _ (P := fun x => finite x /\ tame 100 (value x))); [now intros ? []|auto]).
  assert (HT : Forall (fun x => tame 100 (value x)) args) by (apply (Forall_impl _ (P := fun x => finite x /\ tame 100 (value x))); [now intros ? []|auto]).
  destruct (run Ufuncs_expr f (columns (length args))) as [outs|er] eqn:E.
  2:{ apply run_py_sound in H. rewrite <- (columns_eval (Ufuncs_R arctan2) (map value args) 0), run_symbolic, map_length, E in H. discriminate. }
  pose proof (stable_shape _ _ _ Hf E) as HS. pose proof (stable_ordered arctan2 _ _ _ Hf Ho E) as HO.
  unfold run_py in H. rewrite (run_py_eval arctan2 f args outs E) in H. cbn [bind] in H. apply sequence_Ok in H.
  rewrite (run_f64_eval L f args outs E). eexists. split; [reflexivity|].
  clear E Hf Ho. revert out H. induction outs as [|e outs IH]; simpl; intros out H; inversion H; subst; constructor.
  - apply Forall_inv in HS as (S0 & K0 & M0). apply Forall_inv in HO.
    destruct (py_no_zero_division arctan2 args e _ S0 H2) as [<- NZ].
    destruct (mag_spec arctan2 args HT e S0 NZ HO) as [Te Ti].
    assert (Ti' : forall e', In e' (intermediates e) -> tame 1000 (exact arctan2 args e')) by (intros; eapply tame_le; [exact M0|auto]).
    destruct (stable_within L arctan2 args HF HM HP e S0 ltac:(lia) Ti' NZ) as [F W].
    pose proof (tame_nonneg _ _ Te) as N. split; auto. split. eapply within_error; eauto. intros Hp. eapply within_pos; eauto.
  - apply IH; auto. now apply Forall_inv_tail in HS. now apply Forall_inv_tail in HO.
Qed.

(** ** A library that meets the assumptions *)

Lemma compare_eq x y : finite x -> finite y -> Bcompare x y = Some (Rcompare (value x) (value y)).
Proof. intros. now apply Bcompare_correct. Qed.

Lemma max_by_sqrt : max_correct libm_by_sqrt.
Proof.
  intros x y Fx Fy. simpl. unfold f64_max. rewrite compare_eq by auto. unfold Rmax.
  destruct (Rcompare_spec (value x) (value y)), (Rle_dec (value x) (value y)); split; auto; lra.
Qed.

Lemma two_val : finite (f64_of 2 0) /\ value (f64_of 2 0) = 2.
Proof. apply nlit_exact. lia. Qed.
Lemma mhalf_val : finite (f64_of (-1) (-1)) /\ value (f64_of (-1) (-1)) = - / 2.
Proof. replace (- / 2) with (IZR (-1) * powerRZ 2 (-1)) by (simpl; lra). apply lit_exact. exists (-1)%Z, (-1)%Z. repeat split; lia. Qed.

Lemma sqrt_rounds x : finite x -> 0 <= value x -> finite (Bsqrt mode_NE x) /\ value (Bsqrt mode_NE x) = rnd (sqrt (value x)).
Proof.
  unfold finite, value. intros F H. destruct (Bsqrt_correct _ _ _ _ mode_NE x) as (A & B & _). split; auto.
  rewrite B. destruct x; auto; try discriminate F. destruct s; auto. exfalso.
  simpl in H. unfold F2R in H. simpl in H. pose proof (bpow_gt_0 radix2 e).
  assert (IZR (Z.neg m) <= -1) by (apply IZR_le; lia). nra.
Qed.

Lemma pow_by_sqrt_accurate : pow_accurate libm_by_sqrt.
Proof.
  intros x F H. cbn [lm_pow libm_by_sqrt]. unfold pow_by_sqrt.
  destruct two_val as [F2 V2], nhalf_exact as [Fh Vh], mhalf_val as [Fm Vm].
  rewrite !compare_eq by auto. rewrite V2, Vh, Vm.
  split; [|split].
  - intros T. rewrite Rcompare_Eq by lra.
    assert (T' : tame 1020 (value x * value x)). { replace (value x * value x) with (value x ^ 2) by ring. apply (tame_le 1010); [lia|auto]. }
    destruct (mul_rounds x x) as [A B]; auto. now apply tame_abs. split; auto. rewrite B.
    replace (value x ^ 2) with (value x * value x) by ring. apply (within_mono 1); auto. nra. now apply tame_rnd.
  - intros T. rewrite (Rcompare_Lt (/ 2) 2) by lra. rewrite (Rcompare_Eq (/ 2) (/ 2)) by lra.
    destruct (sqrt_rounds x F H) as [A B]. split; auto. rewrite B. apply (within_mono 1); auto. apply sqrt_pos.
    apply tame_rnd. apply tame_sqrt. apply (tame_le 1010); [lia|auto].
  - intros T N. rewrite (Rcompare_Lt (- / 2) 2) by lra. rewrite (Rcompare_Lt (- / 2) (/ 2)) by lra. rewrite (Rcompare_Eq (- / 2)) by lra.
    destruct (sqrt_rounds x F H) as [A B]. assert (P : 0 < sqrt (value x)) by (apply sqrt_lt_R0; lra).
    assert (Ts : tame 1010 (sqrt (value x))) by now apply tame_sqrt.
    assert (W : within 1 (value (Bsqrt mode_NE x)) (sqrt (value x))).
    { rewrite B. apply tame_rnd. apply (tame_le 1010); [lia|auto]. }
    destruct (nlit_exact 1) as [F1 V1]; [lia|].
    assert (W' : within 1 (value (f64_of 1 0) / value (Bsqrt mode_NE x)) (/ sqrt (value x))).
    { rewrite V1. unfold Rdiv. rewrite Rmult_1_l. now apply within_inv. }
    assert (T' : tame 1011 (value (f64_of 1 0) / value (Bsqrt mode_NE x))).
    { eapply (within_tame 1); [lia| |exact W']. apply tame_inv; auto. now apply Rgt_not_eq. }
    destruct (div_rounds (f64_of 1 0) (Bsqrt mode_NE x)) as [C D]; auto.
    apply Rgt_not_eq. eapply within_pos; eauto. apply tame_abs. apply (tame_le 1011); [lia|auto].
    split; auto. rewrite D. apply (within_trans 1 1 _ (value (f64_of 1 0) / value (Bsqrt mode_NE x))); auto.
    left. now apply Rinv_0_lt_compat. apply tame_rnd. apply (tame_le 1011); [lia|auto].
Qed.

(** ** Counterexamples *)

Lemma value_SF x s : B2SF x = s -> value x = SF2R radix2 s.
Proof. intros <-. unfold value. symmetry. apply SF2R_B2SF. Qed.
Ltac sf := eapply eq_trans; [eapply value_SF; vm_compute; reflexivity|unfold SF2R, F2R; simpl].

(** geometric_beta counted from one, prior Beta(1, 2^-60), one trial with one attempt *)
Lemma geometric_absorbs L :
  exists a b, run_f64 L (F_geometric_beta true) [f64_of 1 0; f64_of 1 0; f64_of 1 0; f64_of 1 (-60)] = Ok [a; b] /\ finite b /\ value b = 0.
Proof. do 2 eexists. split. reflexivity. split. vm_compute. reflexivity. sf. reflexivity. Qed.
Lemma geometric_exact arctan2 :
  exists a b, run (Ufuncs_R arctan2) (F_geometric_beta true) (map value [f64_of 1 0; f64_of 1 0; f64_of 1 0; f64_of 1 (-60)]) = Ok [a; b] /\ 0 < b.
Proof.
  exists (value (f64_of 1 0) + value (f64_of 1 0)), (value (f64_of 1 (-60)) + value (f64_of 1 0) - value (f64_of 1 0)).
  split. reflexivity. assert (E : value (f64_of 1 (-60)) = / 2 ^ 60).
  { sf. lra. }
  rewrite E. assert (0 < / 2 ^ 60) by apply Rinv_0_lt_compat, pow2_pos. lra.
Qed.

Lemma known_mean_negative L : squares_by_product L ->
  exists a b, run_f64 L F_normal_known_mean_ig known_mean_data = Ok [a; b] /\ finite b /\ value b < 0.
Proof.
  intros HL. do 2 eexists. split. reflexivity. cbn [InverseGamma_beta normal_known_mean_inverse_gamma_prior nsq NumF64 nadd nsub nmul ndiv nlit nhalf].
  rewrite HL. split. vm_compute. reflexivity. eapply Rle_lt_trans. right. sf. reflexivity. lra.
Qed.

Lemma known_mean_exact arctan2 :
  run (Ufuncs_R arctan2) F_normal_known_mean_ig (map value known_mean_data) = Ok [1 + 1 / 2; / 2 ^ 10 + / 2].
Proof.
  unfold known_mean_data. cbn [map].
  assert (E1 : value (f64_of 134217730 0) = 134217730) by (sf; lra).
  assert (E2 : value (f64_of (134217730 * 134217730) 0) = 134217730 * 134217730) by (sf; lra).
  assert (E3 : value (f64_of 1 0) = 1) by (sf; lra).
  assert (E4 : value (f64_of 134217731 0) = 134217731) by (sf; lra).
  assert (E5 : value (f64_of 1 (-10)) = / 2 ^ 10) by (sf; lra).
  rewrite E1, E2, E3, E4, E5. cbv [run VariancePrior_fields normal_known_mean normal_known_mean_inverse_gamma_prior InverseGamma_fields
    InverseGamma_alpha InverseGamma_beta nadd nsub nmul ndiv nlit nhalf nsq NumR]. do 2 f_equal. f_equal. lra.
Qed.

Lemma normal_negative L : squares_by_product L ->
  exists mu a b nu, run_f64 L F_normal_nig normal_data = Ok [mu; a; b; nu] /\ finite b /\ value b < 0.
Proof.
  intros HL. do 4 eexists. split. reflexivity. cbn [nsq NumF64 nadd nsub nmul ndiv nlit nhalf].
  rewrite !HL. split. vm_compute. reflexivity. eapply Rle_lt_trans. right. sf. reflexivity. lra.
Qed.
Lemma normal_exact arctan2 : exists nu,
  run (Ufuncs_R arctan2) F_normal_nig (map value normal_data) = Ok [48; 1 + 3 / 2; / 2 ^ 40; nu + 3] /\ 0 < nu.
Proof.
  exists (value (f64_of 5404319552844595 (-54))). unfold normal_data. cbn [map].
  assert (E1 : value (f64_of 144 0) = 144) by (sf; lra).
  assert (E2 : value (f64_of 6912 0) = 6912) by (sf; lra).
  assert (E3 : value (f64_of 3 0) = 3) by (sf; lra).
  assert (E4 : value (f64_of 48 0) = 48) by (sf; lra).
  assert (E5 : value (f64_of 1 0) = 1) by (sf; lra).
  assert (E6 : value (f64_of 1 (-40)) = / 2 ^ 40) by (sf; lra).
  assert (P : 0 < value (f64_of 5404319552844595 (-54))).
  { eapply Rlt_le_trans. 2: right; symmetry; sf; reflexivity. lra. }
  revert P. generalize (value (f64_of 5404319552844595 (-54))). intros nu P. rewrite E1, E2, E3, E4, E5, E6. split; auto.
  cbv [run rmap bind NormalPrior_fields nig normal new_NormalInverseGamma normal_update NormalInverseGamma_mu NormalInverseGamma_alpha NormalInverseGamma_beta
    NormalInverseGamma_nu nadd nsub nmul ndiv nlit nhalf nsq NumR app].
  assert (M : (nu * 48 + 3 * (144 / 3)) / (nu + 3) = 48) by (field; lra). rewrite M.
  f_equal. f_equal. f_equal. f_equal. field.
Qed.

(** ** Sequences *)

Lemma c_half_any k : INR k <= 2 ^ 52 -> / 2 <= (1 - u) ^ k.
Proof.
  intros H. apply Rle_trans with (2 := c_bernoulli k).
  assert (E : 2 ^ 52 * u = / 2) by (unfold u; simpl; lra). pose proof u_pos. nra.
Qed.

(** Adding nonnegative floats one after the other. *)
Lemma fold_within (ys : list f64) : forall (k : nat) (a : f64) (s : R),
  finite a -> within k (value a) s -> / 2 ^ 1000 <= s -> Forall (fun y => finite y /\ 0 <= value y) ys ->
  INR (k + length ys) <= 2 ^ 52 -> fold_left Rplus (map value ys) s <= 2 ^ 1000 ->
  finite (fold_left (Bplus mode_NE) ys a) /\
  within (k + length ys) (value (fold_left (Bplus mode_NE) ys a)) (fold_left Rplus (map value ys) s).
Proof.
  induction ys as [|y ys IH]; cbn [fold_left map length]; intros k a s Fa W Hs HY Hk Ht.
  - rewrite Nat.add_0_r. auto.
  - inversion HY as [|? ? [Fy Py] HY']; subst.
    assert (P0 : 0 < / 2 ^ 1000) by apply Rinv_0_lt_compat, pow2_pos.
    assert (Mono : forall l z, Forall (fun y => finite y /\ 0 <= value y) l -> z <= fold_left Rplus (map value l) z).
    { clear. induction l as [|y l IH]; simpl; intros z H. lra. inversion H as [|? ? [_ P] H']; subst. specialize (IH (z + value y) H'). lra. }
    pose proof (Mono ys (s + value y) HY') as Le.
    assert (Hk' : INR k <= 2 ^ 52). { apply Rle_trans with (2 := Hk). apply le_INR. lia. }
    assert (W' : within k (value a + value y) (s + value y)).
    { replace k with (Nat.max k k) by lia. apply within_add; auto. lra. now apply within_refl. }
    pose proof (c_half_any k Hk') as Ch. pose proof (c_pos k).
    assert (Ci : / (1 - u) ^ k <= 2). { rewrite <- (Rinv_involutive 2) by lra. apply Rinv_le_contravar; lra. }
    assert (R1 : / 2 ^ 1001 <= value a + value y <= 2 ^ 1001).
    { destruct W' as [A B]. unfold Rdiv in B. pose proof (pow2_pos 1000).
      change (2 ^ 1001) with (2 * 2 ^ 1000). rewrite Rinv_mult_distr by (try (apply Rgt_not_eq; auto); lra). split; nra. }
    assert (T1 : tame 1020 (value a + value y)) by (apply (tame_le 1001); [lia|now right]).
    destruct (add_rounds a y Fa Fy) as [F E]. now apply tame_abs.
    replace (k + S (length ys))%nat with (S k + length ys)%nat in * by lia. apply IH; auto.
    + rewrite E. apply (within_trans k 1 _ (value a + value y)); auto. lra. now apply tame_rnd.
    + lra.
Qed.

Lemma fold_sum l s : fold_left Rplus l s = s + sumR l.
Proof. revert s. induction l as [|x l IH]; simpl; intros s. lra. rewrite IH. unfold sumR at 2. simpl. fold (sumR l). lra. Qed.

(** Adding whole numbers one after the other. *)
Lemma fold_exact (ys : list f64) : forall (a : f64),
  finite a -> (exists z, value a = IZR z /\ (0 <= z)%Z) -> Forall (fun y => finite y /\ exists z, value y = IZR z /\ (0 <= z)%Z) ys ->
  fold_left Rplus (map value ys) (value a) <= 2 ^ 53 ->
  finite (fold_left (Bplus mode_NE) ys a) /\
  value (fold_left (Bplus mode_NE) ys a) = fold_left Rplus (map value ys) (value a).
Proof.
  induction ys as [|y ys IH]; cbn [fold_left map length]; intros a Fa (z & Ez & Hz) HY Ht; auto.
  inversion HY as [|? ? [Fy (zy & Ezy & Hzy)] HY']; subst.
  assert (Mono : forall l z, Forall (fun y => finite y /\ exists z, value y = IZR z /\ (0 <= z)%Z) l -> z <= fold_left Rplus (map value l) z).
  { clear. induction l as [|y l IH]; simpl; intros z H. lra. inversion H as [|? ? [_ (zy & E & P)] H']; subst. specialize (IH (z + value y) H').
    apply IZR_le in P. lra. }
  pose proof (Mono ys (value a + value y) HY') as Le.
  destruct (add_exact a y Fa Fy) as [F E].
  { rewrite Ez, Ezy, <- plus_IZR in *. apply representable_int.
    assert (Hle : IZR (z + zy) <= IZR (2 ^ 53)).
    { apply Rle_trans with (1 := Le), Rle_trans with (1 := Ht). rewrite pow_IZR. right. reflexivity. }
    apply le_IZR in Hle. lia. }
  rewrite <- E in *. apply IH; auto. exists (z + zy)%Z. rewrite E, Ez, Ezy, plus_IZR. split; auto. lia.
Qed.

(** *** Gamma posteriors, one batch at a time *)

Lemma fold_poisson L bs : forall prior,
  fold_left (fun p b => poisson_gamma (NA := NumF64 L) (fst b) (snd b) p) bs prior =
  mkGamma (fold_left (Bplus mode_NE) (map fst bs) (Gamma_alpha prior)) (fold_left (Bplus mode_NE) (map snd bs) (Gamma_beta prior)).
Proof. induction bs as [|b bs IH]; intros [a b']; simpl; auto. now rewrite IH. Qed.
Lemma fold_exponential L bs : forall prior,
  fold_left (fun p b => exponential_gamma (NA := NumF64 L) (fst b) (snd b) p) bs prior =
  mkGamma (fold_left (Bplus mode_NE) (map fst bs) (Gamma_alpha prior)) (fold_left (Bplus mode_NE) (map snd bs) (Gamma_beta prior)).
Proof. induction bs as [|b bs IH]; intros [a b']; simpl; auto. now rewrite IH. Qed.
Lemma fold_weibull L bs : forall prior,
  fold_left (fun p b => weibull_inverse_gamma_known_shape (NA := NumF64 L) (fst b) (snd b) p) bs prior =
  mkInverseGamma (fold_left (Bplus mode_NE) (map fst bs) (InverseGamma_alpha prior)) (fold_left (Bplus mode_NE) (map snd bs) (InverseGamma_beta prior)).
Proof. induction bs as [|b bs IH]; intros [a b']; simpl; auto. now rewrite IH. Qed.

Lemma pair_within (bs : list (f64 * f64)) (a b : f64) : finite a -> finite b ->
  / 2 ^ 1000 <= value a -> / 2 ^ 1000 <= value b ->
  Forall (fun p => finite (fst p) /\ finite (snd p) /\ 0 <= value (fst p) /\ 0 <= value (snd p)) bs ->
  INR (length bs) <= 2 ^ 52 -> value a + sum1 bs <= 2 ^ 1000 -> value b + sum2 bs <= 2 ^ 1000 ->
  let a' := fold_left (Bplus mode_NE) (map fst bs) a in
  let b' := fold_left (Bplus mode_NE) (map snd bs) b in
  finite a' /\ finite b' /\ within (length bs) (value a') (value a + sum1 bs) /\ within (length bs) (value b') (value b + sum2 bs).
Proof.
  intros Fa Fb Pa Pb HB Hk Sa Sb. cbv zeta. rewrite Forall_forall in HB. 
  assert (E1 : value a + sum1 bs = fold_left Rplus (map value (map fst bs)) (value a)) by (unfold sum1; now rewrite fold_sum, map_map).
  assert (E2 : value b + sum2 bs = fold_left Rplus (map value (map snd bs)) (value b)) by (unfold sum2; now rewrite fold_sum, map_map).
  rewrite E1, E2 in *.
  assert (P0 : 0 < / 2 ^ 1000) by apply Rinv_0_lt_compat, pow2_pos.
  destruct (fold_within (map fst bs) 0 a (value a)) as [F1 W1]; auto. apply within_refl; lra.
  { rewrite Forall_forall. intros y Hy. apply in_map_iff in Hy as (p & <- & Hp). specialize (HB p Hp). tauto. }
  { now rewrite map_length. }
  destruct (fold_within (map snd bs) 0 b (value b)) as [F2 W2]; auto. apply within_refl; lra.
  { rewrite Forall_forall. intros y Hy. apply in_map_iff in Hy as (p & <- & Hp). specialize (HB p Hp). tauto. }
  { now rewrite map_length. }
  rewrite map_length in W1, W2. simpl in W1, W2. repeat split; auto; now apply W1 || now apply W2.
Qed.

Lemma pair_exact (bs : list (f64 * f64)) (a b : f64) : whole a -> whole b ->
  Forall (fun p => whole (fst p) /\ whole (snd p)) bs -> value a + sum1 bs <= 2 ^ 53 -> value b + sum2 bs <= 2 ^ 53 ->
  let a' := fold_left (Bplus mode_NE) (map fst bs) a in
  let b' := fold_left (Bplus mode_NE) (map snd bs) b in
  finite a' /\ finite b' /\ value a' = value a + sum1 bs /\ value b' = value b + sum2 bs.
Proof.
  intros [Fa Wa] [Fb Wb] HB Sa Sb. cbv zeta. rewrite Forall_forall in HB. 
  assert (E1 : value a + sum1 bs = fold_left Rplus (map value (map fst bs)) (value a)) by (unfold sum1; now rewrite fold_sum, map_map).
  assert (E2 : value b + sum2 bs = fold_left Rplus (map value (map snd bs)) (value b)) by (unfold sum2; now rewrite fold_sum, map_map).
  rewrite E1, E2 in *.
  destruct (fold_exact (map fst bs) a) as [F1 W1]; auto.
  { rewrite Forall_forall. intros y Hy. apply in_map_iff in Hy as (p & <- & Hp). specialize (HB p Hp). unfold whole in HB. tauto. }
  destruct (fold_exact (map snd bs) b) as [F2 W2]; auto.
  rewrite Forall_forall. intros y Hy. apply in_map_iff in Hy as (p & <- & Hp). specialize (HB p Hp). unfold whole in HB. tauto.
Qed.

(** Poisson, prior Gamma(2^53, 1): two batches of one event, or one batch of two. *)
Lemma poisson_absorbs L :
  let step p := poisson_gamma (NA := NumF64 L) (f64_of 1 0) (f64_of 1 0) p in
  let prior := mkGamma (f64_of (2 ^ 53) 0) (f64_of 1 0) in
  value (Gamma_alpha (step (step prior))) = 2 ^ 53 /\
  value (Gamma_alpha (poisson_gamma (NA := NumF64 L) (f64_of 2 0) (f64_of 2 0) prior)) = 2 ^ 53 + 2.
Proof. cbv zeta. split; sf; lra. Qed.

Lemma sequences_exact (L : Libm) (bs : list (f64 * f64)) (a b : f64) : whole a -> whole b ->
  Forall (fun p => whole (fst p) /\ whole (snd p)) bs -> value a + sum1 bs <= 2 ^ 53 -> value b + sum2 bs <= 2 ^ 53 ->
  let exactly a' b' := finite a' /\ finite b' /\ value a' = value a + sum1 bs /\ value b' = value b + sum2 bs in
  (let post := fold_left (fun p b => poisson_gamma (NA := NumF64 L) (fst b) (snd b) p) bs (mkGamma a b) in
   exactly (Gamma_alpha post) (Gamma_beta post)) /\
  (let post := fold_left (fun p b => exponential_gamma (NA := NumF64 L) (fst b) (snd b) p) bs (mkGamma a b) in
   exactly (Gamma_alpha post) (Gamma_beta post)) /\
  (let post := fold_left (fun p b => weibull_inverse_gamma_known_shape (NA := NumF64 L) (fst b) (snd b) p) bs (mkInverseGamma a b) in
   exactly (InverseGamma_alpha post) (InverseGamma_beta post)).
Proof.
  intros. cbv zeta. rewrite fold_poisson, fold_exponential, fold_weibull. pose proof (pair_exact bs a b H H0 H1 H2 H3). auto.
Qed.

Lemma sequences_within (L : Libm) (bs : list (f64 * f64)) (a b : f64) : finite a -> finite b ->
  / 2 ^ 1000 <= value a -> / 2 ^ 1000 <= value b ->
  Forall (fun p => finite (fst p) /\ finite (snd p) /\ 0 <= value (fst p) /\ 0 <= value (snd p)) bs ->
  INR (length bs) <= 2 ^ 52 -> value a + sum1 bs <= 2 ^ 1000 -> value b + sum2 bs <= 2 ^ 1000 ->
  let nearly a' b' := finite a' /\ finite b' /\
    within (length bs) (value a') (value a + sum1 bs) /\ within (length bs) (value b') (value b + sum2 bs) in
  (let post := fold_left (fun p b => poisson_gamma (NA := NumF64 L) (fst b) (snd b) p) bs (mkGamma a b) in
   nearly (Gamma_alpha post) (Gamma_beta post)) /\
  (let post := fold_left (fun p b => exponential_gamma (NA := NumF64 L) (fst b) (snd b) p) bs (mkGamma a b) in
   nearly (Gamma_alpha post) (Gamma_beta post)) /\
  (let post := fold_left (fun p b => weibull_inverse_gamma_known_shape (NA := NumF64 L) (fst b) (snd b) p) bs (mkInverseGamma a b) in
   nearly (InverseGamma_alpha post) (InverseGamma_beta post)).
Proof.
  intros. cbv zeta. rewrite fold_poisson, fold_exponential, fold_weibull. pose proof (pair_within bs a b H H0 H1 H2 H3 H4 H5 H6). auto.
Qed.

Lemma run_models_positive L arctan2 f args out : max_correct L -> pow_accurate L -> In f stable_fns ->
  Forall (fun x => finite x /\ tame 100 (value x)) args -> ordered f (map value args) ->
  run_py arctan2 f (map value args) = Ok out ->
  exists fout, run_f64 L f args = Ok fout /\ Forall2 (fun v x => finite v /\ (0 < x -> 0 < value v)) fout out.
Proof.
  intros. destruct (run_models L arctan2 f args out) as (fout & E & F); auto. exists fout. split; auto.
  clear - F. induction F; constructor; auto. tauto.
Qed.

Lemma squares_by_sqrt : squares_by_product libm_by_sqrt.
Proof.
  intros x. cbn [lm_pow libm_by_sqrt]. unfold pow_by_sqrt. destruct two_val as [F2 V2]. rewrite compare_eq by auto.
  rewrite Rcompare_Eq; auto.
Qed.
