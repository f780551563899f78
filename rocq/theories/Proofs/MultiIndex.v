(** Marginals by indexing. *)

From Coq Require Import Reals Lra Psatz ZArith Lia.
From Coquelicot Require Import Coquelicot.
From Verif Require Import Model.Num Model.Py Model.Dists Model.ScipyDist Model.NdArray Model.SliceModel Model.MultiIndex.
From Verif Require Import Spec.Special Spec.Densities Spec.Indexing Spec.Multivariate.
From Verif Require Import Analysis.Improper Analysis.RealAux Analysis.GammaBeta Analysis.GammaFacts Analysis.Gauss Proofs.Slice.
From Coq Require Import List.
Import ListNotations.
Open Scope R_scope.

(** ** Two dimensions *)
Section Two.
Variables m1 m2 a b c : R.
Hypothesis Ha : 0 < a.
Hypothesis Hd : 0 < det2 a b c.

Lemma quad2_split u v : quad2 a b c u v = u ^ 2 / a + (a / det2 a b c) * (v - b / a * u) ^ 2.
Proof. unfold quad2, det2 in *. field. lra. Qed.

Lemma normal2_marginal : first_marginal (normal2_pdf m1 m2 a b c) (pdf (Normal_dist (mkNormal m1 (sqrt a)))).
Proof.
  intros x. set (u := x - m1). set (D := det2 a b c) in *.
  assert (HaD : 0 < a / D) by now apply Rdiv_lt_0_compat.
  pose proof (is_RInt_gen_gauss_prec (a / D) (m2 + b / a * u) HaD) as H.
  apply (is_RInt_gen_mult_l _ _ _ (exp (- (u ^ 2 / a) / 2) / sqrt ((2 * PI) ^ 2 * D))) in H.
  assert (HP := PI_RGT_0).
  replace (pdf (Normal_dist (mkNormal m1 (sqrt a))) x) with (exp (- (u ^ 2 / a) / 2) / sqrt ((2 * PI) ^ 2 * D) * sqrt (2 * PI / (a / D))).
  - revert H. apply (is_RInt_gen_ext_on _ _ _ ends_line). intros y _. unfold normal2_pdf. fold D u. rewrite quad2_split. fold D.
    replace (- (u ^ 2 / a + a / D * (y - m2 - b / a * u) ^ 2) / 2)
      with (- (u ^ 2 / a) / 2 + - (a / D * (y - (m2 + b / a * u)) ^ 2) / 2).
    rewrite exp_plus. unfold Rdiv. ring. unfold Rdiv. ring.
  - change (pdf (Normal_dist (mkNormal m1 (sqrt a))) x) with (locscale std_norm m1 (sqrt a) x).
    unfold locscale, std_norm. fold u.
    assert (Hs : 0 < sqrt a) by now apply sqrt_lt_R0.
    assert (Eu : (u / sqrt a) ^ 2 = u ^ 2 / a) by (rewrite <- (pow2_sqrt a) at 2 by lra; field; lra).
    rewrite Eu.
    replace (2 * PI / (a / D)) with (2 * PI * D / a) by (field; lra).
    rewrite sqrt_div_alt by lra.
    replace ((2 * PI) ^ 2 * D) with ((2 * PI) * (2 * PI * D)) by ring.
    rewrite (sqrt_mult (2 * PI) (2 * PI * D)) by nra.
    assert (0 < sqrt (2 * PI)) by (apply sqrt_lt_R0; lra).
    assert (0 < sqrt (2 * PI * D)) by (apply sqrt_lt_R0; nra).
    field. lra.
Qed.

Lemma t2_marginal nu : 0 < nu -> first_marginal (t2_pdf m1 m2 a b c nu) (pdf (StudentT_dist (mkStudentT m1 (sqrt a) nu))).
Proof.
  intros Hn x. set (u := x - m1). set (D := det2 a b c) in *.
  set (A := 1 + u ^ 2 / (nu * a)).
  assert (HA : 0 < A).
  { unfold A. assert (0 <= u ^ 2 / (nu * a)). apply Rmult_le_pos. apply pow2_ge_0. left. apply Rinv_0_lt_compat. nra. lra. }
  assert (Hs : 0 < sqrt a) by now apply sqrt_lt_R0.
  assert (HsD : 0 < sqrt D) by now apply sqrt_lt_R0.
  assert (HP := PI_RGT_0).
  assert (G : forall z, 0 < z -> 0 < Gamma_fun z) by (intros; now apply Gamma_fun_pos).
  (* w^2 / (nu + 1) = (a / D) (y - m)^2 / (nu A) *)
  set (k := sqrt ((nu + 1) * a / (D * nu * A))).
  assert (Hk2 : 0 < (nu + 1) * a / (D * nu * A)) by (apply Rdiv_lt_0_compat; [nra|apply Rmult_lt_0_compat; nra]).
  assert (Hk : 0 < k) by now apply sqrt_lt_R0.
  pose proof (is_RInt_gen_t_kernel (nu + 1) ltac:(lra)) as H.
  apply (is_RInt_gen_affine _ k (m2 + b / a * u) _ Hk) in H.
  2:{ intros w. assert (0 < 1 + w ^ 2 / (nu + 1)).
      { assert (0 <= w ^ 2 / (nu + 1)). apply Rmult_le_pos. apply pow2_ge_0. left. apply Rinv_0_lt_compat. lra. lra. }
      apply (continuous_comp (fun x => 1 + x ^ 2 / (nu + 1)) (fun t => Rpower t (- ((nu + 1 + 1) / 2)))).
      apply (ex_derive_continuous (V:=R_NormedModule)). auto_derive; auto; lra. now apply continuous_Rpower. }
  apply (is_RInt_gen_mult_l _ _ _ (Gamma_fun ((nu + 2) / 2) / (Gamma_fun (nu / 2) * (nu * PI) * sqrt D) * Rpower A (- ((nu + 2) / 2)))) in H.
  match type of H with is_RInt_gen _ _ _ ?l => replace (pdf (StudentT_dist (mkStudentT m1 (sqrt a) nu)) x) with l end.
  - revert H. apply (is_RInt_gen_ext_on _ _ _ ends_line). intros y _. unfold t2_pdf. fold D u. rewrite quad2_split. fold D.
    replace (nu + 1 + 1) with (nu + 2) by ring.
    rewrite Rmult_assoc. f_equal.
    assert (P : 0 < 1 + (k * (y - (m2 + b / a * u))) ^ 2 / (nu + 1)).
    { assert (0 <= (k * (y - (m2 + b / a * u))) ^ 2 / (nu + 1)). apply Rmult_le_pos. apply pow2_ge_0. left. apply Rinv_0_lt_compat. lra. lra. }
    rewrite Rpower_mult_distr by auto. f_equal.
    rewrite Rpow_mult_distr. unfold k. rewrite pow2_sqrt by lra. unfold A in *.
    assert (nu * a + u ^ 2 <> 0) by (assert (0 <= u ^ 2) by apply pow2_ge_0; nra).
    field. repeat split; try lra; auto.
  - change (pdf (StudentT_dist (mkStudentT m1 (sqrt a) nu)) x) with (locscale (std_t nu) m1 (sqrt a) x).
    unfold locscale, std_t. fold u.
    replace (1 + (u / sqrt a) ^ 2 / nu) with A.
    2:{ unfold A. assert (Eu : (u / sqrt a) ^ 2 = u ^ 2 / a) by (rewrite <- (pow2_sqrt a) at 2 by lra; field; lra).
        rewrite Eu. field. lra. }
    pose proof (Beta_Gamma (/ 2) ((nu + 1) / 2) ltac:(lra) ltac:(lra)) as EB.
    replace (/ 2 + (nu + 1) / 2) with ((nu + 2) / 2) in EB by field.
    rewrite Gamma_half in EB.
    assert (G3 := G ((nu + 2) / 2) ltac:(lra)).
    assert (EB' : Beta_fun (/ 2) ((nu + 1) / 2) = sqrt PI * Gamma_fun ((nu + 1) / 2) / Gamma_fun ((nu + 2) / 2)) by (rewrite EB; field; lra).
    rewrite EB'. clear EB EB'.
    replace (- ((nu + 2) / 2)) with (- ((nu + 1) / 2) + - / 2) by field.
    rewrite Rpower_plus. rewrite (Rpower_Ropp A (/2)), Rpower_sqrt by auto.
    assert (Ek : k = sqrt (nu + 1) * sqrt a / (sqrt D * sqrt nu * sqrt A)).
    { unfold k. rewrite sqrt_div_alt by (apply Rmult_lt_0_compat; nra).
      rewrite sqrt_mult by lra. rewrite sqrt_mult by (try lra; nra). rewrite sqrt_mult by lra. reflexivity. }
    rewrite Ek.
    rewrite (sqrt_mult PI nu) by lra.
    assert (0 < sqrt nu) by now apply sqrt_lt_R0. assert (0 < sqrt A) by now apply sqrt_lt_R0.
    assert (0 < sqrt (nu + 1)) by (apply sqrt_lt_R0; lra). assert (0 < sqrt PI) by (apply sqrt_lt_R0; lra).
    assert (G1 := G (nu / 2) ltac:(lra)). assert (G2 := G ((nu + 1) / 2) ltac:(lra)). 
    replace (nu * PI) with (sqrt nu * sqrt nu * (sqrt PI * sqrt PI)) by (rewrite !sqrt_def by lra; ring).
    field. repeat split; lra.
Qed.
End Two.

Lemma quad2_swap a b c u v : quad2 a b c u v = quad2 c b a v u.
Proof. unfold quad2, det2. replace (c * a - b ^ 2) with (a * c - b ^ 2) by ring. f_equal. ring. Qed.
Lemma det2_swap a b c : det2 a b c = det2 c b a.
Proof. unfold det2. ring. Qed.

Lemma normal2_marginal2 m1 m2 a b c : 0 < c -> 0 < det2 a b c ->
  second_marginal (normal2_pdf m1 m2 a b c) (pdf (Normal_dist (mkNormal m2 (sqrt c)))).
Proof.
  intros Hc Hd y. rewrite det2_swap in Hd. generalize (normal2_marginal m2 m1 c b a Hc Hd y).
  apply (is_RInt_gen_ext_on _ _ _ ends_line). intros x _. unfold normal2_pdf. now rewrite quad2_swap, det2_swap.
Qed.
Lemma t2_marginal2 m1 m2 a b c nu : 0 < c -> 0 < det2 a b c -> 0 < nu ->
  second_marginal (t2_pdf m1 m2 a b c nu) (pdf (StudentT_dist (mkStudentT m2 (sqrt c) nu))).
Proof.
  intros Hc Hd Hn y. rewrite det2_swap in Hd. generalize (t2_marginal m2 m1 c b a Hc Hd nu Hn y).
  apply (is_RInt_gen_ext_on _ _ _ ends_line). intros x _. unfold t2_pdf. now rewrite quad2_swap, det2_swap.
Qed.

(** ** Any dimension *)
Lemma sum_ext n f g : (forall i, (i < n)%nat -> f i = g i) -> sum_n n f = sum_n n g.
Proof.
  intros H. unfold sum_n. f_equal. apply map_ext_in. intros i Hi. apply in_seq in Hi. apply H. lia.
Qed.
Lemma fold_scal k l : fold_right Rplus 0 (map (Rmult k) l) = k * fold_right Rplus 0 l.
Proof. induction l; simpl; lra. Qed.
Lemma sum_scal k n f : sum_n n (fun i => k * f i) = k * sum_n n f.
Proof. unfold sum_n. rewrite <- fold_scal, map_map. reflexivity. Qed.
Lemma sum_plus n f g : sum_n n (fun i => f i + g i) = sum_n n f + sum_n n g.
Proof. unfold sum_n. induction (seq 0 n); simpl; lra. Qed.
Lemma sum_zero n : sum_n n (fun _ => 0) = 0.
Proof. unfold sum_n. induction (seq 0 n); simpl; lra. Qed.
Lemma sum_swap n m f : sum_n n (fun i => sum_n m (fun j => f i j)) = sum_n m (fun j => sum_n n (fun i => f i j)).
Proof.
  unfold sum_n. generalize (seq 0 n) (seq 0 m). clear. intros l k. induction l as [|x l IH]; simpl.
  - induction k; simpl; lra.
  - rewrite IH. clear IH. induction k as [|y k IH]; simpl; [lra|]. rewrite <- IH. ring.
Qed.
Lemma sum_delta n k f : (k < n)%nat -> sum_n n (fun i => if Nat.eqb k i then f i else 0) = f k.
Proof.
  intros H. unfold sum_n.
  assert (G : forall a m, fold_right Rplus 0 (map (fun i => if Nat.eqb k i then f i else 0) (seq a m)) =
            if (Nat.leb a k && Nat.ltb k (a + m))%bool then f k else 0).
  { intros a m. revert a. induction m as [|m IH]; intros a; simpl.
    - destruct (Nat.leb_spec a k), (Nat.ltb_spec k (a + 0)); simpl; auto; lia.
    - rewrite IH. destruct (Nat.eqb_spec k a), (Nat.leb_spec (S a) k), (Nat.leb_spec a k), (Nat.ltb_spec k (S a + m)), (Nat.ltb_spec k (a + S m)); subst; simpl; try lia; lra. }
  rewrite G. destruct (Nat.leb_spec 0 k), (Nat.ltb_spec k (0 + n)); simpl; auto; lia.
Qed.

Lemma sum_weight n l t f : Forall (fun i => (i < n)%nat) l ->
  sum_n n (fun i => weight_of l t i * f i) = sum_n (length l) (fun j => t j * f (nth j l 0%nat)).
Proof.
  intros F. unfold weight_of.
  rewrite (sum_ext n _ (fun i => sum_n (length l) (fun j => if Nat.eqb (nth j l 0%nat) i then t j * f i else 0))).
  2:{ intros i _. rewrite Rmult_comm, <- sum_scal. apply sum_ext. intros j _. destruct Nat.eqb; ring. }
  rewrite sum_swap. apply sum_ext. intros j Hj. apply (sum_delta n (nth j l 0%nat) (fun i => t j * f i)).
  rewrite Forall_forall in F. apply F. now apply nth_In.
Qed.

Lemma cgf_sub n mu cov l t : Forall (fun i => (i < n)%nat) l ->
  normal_cgf (length l) (fun j => mu (nth j l 0%nat)) (fun i j => cov (nth i l 0%nat) (nth j l 0%nat)) t =
  normal_cgf n mu cov (weight_of l t).
Proof.
  intros F. unfold normal_cgf. f_equal.
  - symmetry. now apply sum_weight.
  - f_equal. symmetry.
    rewrite (sum_ext n _ (fun i => weight_of l t i * sum_n (length l) (fun j => t j * cov i (nth j l 0%nat)))).
    2:{ intros i _. rewrite <- (sum_weight n l t (cov i) F), <- sum_scal. apply sum_ext. intros; ring. }
    rewrite sum_weight by auto. apply sum_ext. intros i _. rewrite <- sum_scal. apply sum_ext. intros; ring.
Qed.

Section Sub.
Context {A : Type} {NA : Num A}.

Lemma sub_square (mu cov : nd A) n k l : nd_shape mu = [n] -> nd_shape cov = [n; n] -> selects n k l ->
  exists m rows c, nd_getitem mu k = Ok m /\ nd_getitem cov k = Ok rows /\ nd_getcol rows k = Ok c /\
    nd_shape m = [length l] /\ nd_shape c = [length l; length l] /\
    (forall i, nd_entry m [i] = nd_entry mu [nth i l 0%nat]) /\
    (forall i j, nd_entry c [i; j] = nd_entry cov [nth i l 0%nat; nth j l 0%nat]).
Proof.
  intros Hm Hc S. pose proof (select_spec _ _ _ S) as E.
  assert (K : forall a, nd_shape a = [n] \/ nd_shape a = [n; n] -> forall s, nd_shape a = n :: s ->
     @nd_getitem A a k = Ok (mkNd (length l :: s) (fun i => match i with
                                   | j :: i' => nd_entry a (nth j l 0%nat :: i')
                                   | [] => nd_entry a [] end))).
  { intros a _ s Hs. unfold nd_getitem. rewrite Hs. destruct S; rewrite ?E; reflexivity. }
  do 3 eexists. split; [apply (K mu (or_introl Hm) [] Hm)|]. split; [apply (K cov (or_intror Hc) [n] Hc)|].
  split. unfold nd_getcol. cbn [nd_shape]. rewrite E. reflexivity.
  repeat split.
Qed.

Lemma normal_many (mu cov : nd A) n k l : nd_shape mu = [n] -> nd_shape cov = [n; n] -> selects n k l ->
  exists m c, MultivariateNormal_getitem mu cov (Many k) = Ok (Multi_normal m c) /\
    nd_shape m = [length l] /\ nd_shape c = [length l; length l] /\
    (forall i, nd_entry m [i] = nd_entry mu [nth i l 0%nat]) /\
    (forall i j, nd_entry c [i; j] = nd_entry cov [nth i l 0%nat; nth j l 0%nat]).
Proof.
  intros Hm Hc S. destruct (sub_square mu cov n k l Hm Hc S) as (m & rows & c & E1 & E2 & E3 & H).
  exists m, c. split; auto. simpl. rewrite E1, E2. simpl. rewrite E3. reflexivity.
Qed.
Lemma t_many (mu cov : nd A) nu n k l : nd_shape mu = [n] -> nd_shape cov = [n; n] -> selects n k l ->
  exists m c, MultivariateStudentT_getitem mu cov nu (Many k) = Ok (Multi_t m c nu) /\
    nd_shape m = [length l] /\ nd_shape c = [length l; length l] /\
    (forall i, nd_entry m [i] = nd_entry mu [nth i l 0%nat]) /\
    (forall i j, nd_entry c [i; j] = nd_entry cov [nth i l 0%nat; nth j l 0%nat]).
Proof.
  intros Hm Hc S. destruct (sub_square mu cov n k l Hm Hc S) as (m & rows & c & E1 & E2 & E3 & H).
  exists m, c. split; auto. simpl. rewrite E1, E2. simpl. rewrite E3. reflexivity.
Qed.

Lemma normal_int (mu cov : nd A) n k i : nd_shape mu = [n] -> nd_shape cov = [n; n] -> names n k i ->
  MultivariateNormal_getitem mu cov (PyInt k) =
  Ok (Univariate_normal (mkNormal (nd_entry mu [i]) (nsqrt (nd_entry cov [i; i])))).
Proof.
  intros Hm Hc H. apply position_names in H. simpl. unfold nd_getitem, nd_getitem2. rewrite Hm, Hc, H. reflexivity.
Qed.
Lemma normal_int_any (mu cov : nd A) n d1 d2 k i r c : nd_shape mu = [n] -> nd_shape cov = [d1; d2] -> names n k i -> names d1 k r -> names d2 k c ->
  MultivariateNormal_getitem mu cov (PyInt k) =
  Ok (Univariate_normal (mkNormal (nd_entry mu [i]) (nsqrt (nd_entry cov [r; c])))).
Proof.
  intros Hm Hc H H1 H2. apply position_names in H. apply position_names in H1. apply position_names in H2.
  simpl. unfold nd_getitem, nd_getitem2. rewrite Hm, Hc, H, H1, H2. reflexivity.
Qed.
Lemma t_int_any (mu cov : nd A) nu n d1 d2 k i r c : nd_shape mu = [n] -> nd_shape cov = [d1; d2] -> names n k i -> names d1 k r -> names d2 k c ->
  MultivariateStudentT_getitem mu cov nu (PyInt k) =
  Ok (Univariate_t (mkStudentT (nd_entry mu [i]) (nd_entry cov [r; c]) nu)).
Proof.
  intros Hm Hc H H1 H2. apply position_names in H. apply position_names in H1. apply position_names in H2.
  simpl. unfold nd_getitem, nd_getitem2. rewrite Hm, Hc, H, H1, H2. reflexivity.
Qed.
Lemma t_int (mu cov : nd A) nu n k i : nd_shape mu = [n] -> nd_shape cov = [n; n] -> names n k i ->
  MultivariateStudentT_getitem mu cov nu (PyInt k) =
  Ok (Univariate_t (mkStudentT (nd_entry mu [i]) (nd_entry cov [i; i]) nu)).
Proof.
  intros Hm Hc H. apply position_names in H. simpl. unfold nd_getitem, nd_getitem2. rewrite Hm, Hc, H. reflexivity.
Qed.
Lemma int_raises (mu cov : nd A) nu n k : nd_shape mu = [n] -> nd_shape cov = [n; n] ->
  (k < - Z.of_nat n \/ Z.of_nat n <= k)%Z ->
  MultivariateNormal_getitem mu cov (PyInt k) = Raise IndexError /\
  MultivariateStudentT_getitem mu cov nu (PyInt k) = Raise IndexError.
Proof.
  intros Hm Hc H. apply position_none in H. simpl. unfold nd_getitem. now rewrite Hm, H.
Qed.
Lemma npint_raises (mu cov : nd A) nu n k : nd_shape mu = [n] -> nd_shape cov = [n; n] ->
  MultivariateNormal_getitem mu cov (NpInt k) = Raise IndexError /\
  MultivariateStudentT_getitem mu cov nu (NpInt k) = Raise IndexError.
Proof.
  intros Hm Hc. simpl. unfold nd_getitem. rewrite Hm, Hc. destruct (position n k); auto.
Qed.
End Sub.

Lemma weight_sum n l t f : Forall (fun i => (i < n)%nat) l ->
  sum_n (length l) (fun j => t j * f (nth j l 0%nat)) = sum_n n (fun i => weight_of l t i * f i).
Proof. intros. symmetry. now apply sum_weight. Qed.

Lemma cgf_ext n mu mu' cov cov' t : (forall i, (i < n)%nat -> mu i = mu' i) ->
  (forall i j, (i < n)%nat -> (j < n)%nat -> cov i j = cov' i j) -> normal_cgf n mu cov t = normal_cgf n mu' cov' t.
Proof.
  intros H1 H2. unfold normal_cgf. f_equal. apply sum_ext. intros. now rewrite H1.
  f_equal. apply sum_ext. intros. apply sum_ext. intros. now rewrite H2.
Qed.

Lemma normal_int_cgf (mu cov : nd R) n k i t : nd_shape mu = [n] -> nd_shape cov = [n; n] -> names n k i ->
  0 <= nd_entry cov [i; i] ->
  exists d, MultivariateNormal_getitem mu cov (PyInt k) = Ok (Univariate_normal d) /\
    normal_cgf 1 (fun _ => Normal_mu d) (fun _ _ => Normal_sigma d ^ 2) t =
    normal_cgf n (fun i => nd_entry mu [i]) (fun i j => nd_entry cov [i; j]) (weight_of [i] t).
Proof.
  intros Hm Hc H P. eexists. split. apply (normal_int mu cov n k i); auto.
  rewrite <- cgf_sub by (constructor; [apply H|constructor]). apply cgf_ext; cbn [Normal_mu Normal_sigma length].
  - intros j Hj. assert (j = 0)%nat as -> by lia. reflexivity.
  - intros j j' Hj Hj'. assert (j = 0)%nat as -> by lia. assert (j' = 0)%nat as -> by lia.
    change (nsqrt (nd_entry cov [i; i])) with (sqrt (nd_entry cov [i; i])). now rewrite pow2_sqrt.
Qed.

Lemma many_cgf (mu cov : nd R) nu n k l : nd_shape mu = [n] -> nd_shape cov = [n; n] -> selects n k l ->
  (exists m c, MultivariateNormal_getitem mu cov (Many k) = Ok (Multi_normal m c) /\
    nd_shape m = [length l] /\ nd_shape c = [length l; length l] /\
    forall t, normal_cgf (length l) (fun i => nd_entry m [i]) (fun i j => nd_entry c [i; j]) t =
              normal_cgf n (fun i => nd_entry mu [i]) (fun i j => nd_entry cov [i; j]) (weight_of l t)) /\
  (exists m c, MultivariateStudentT_getitem mu cov nu (Many k) = Ok (Multi_t m c nu) /\
    nd_shape m = [length l] /\ nd_shape c = [length l; length l] /\
    forall w t, t_cgf_given w (length l) (fun i => nd_entry m [i]) (fun i j => nd_entry c [i; j]) nu t =
                t_cgf_given w n (fun i => nd_entry mu [i]) (fun i j => nd_entry cov [i; j]) nu (weight_of l t)).
Proof.
  intros Hm Hc S. pose proof (selects_lt _ _ _ S) as F. split.
  - destruct (normal_many mu cov n k l Hm Hc S) as (m & c & E & H1 & H2 & H3 & H4).
    exists m, c. repeat split; auto. intros t. rewrite <- cgf_sub by auto. apply cgf_ext; auto.
  - destruct (t_many mu cov nu n k l Hm Hc S) as (m & c & E & H1 & H2 & H3 & H4).
    exists m, c. repeat split; auto. intros w t. unfold t_cgf_given.
    rewrite <- (cgf_sub n (fun i => nd_entry mu [i]) (fun i j => nu / w * nd_entry cov [i; j])) by auto.
    apply cgf_ext; auto. intros. now rewrite H4.
Qed.

(** indexing twice is indexing with the composed positions *)
Lemma many_many {A} {NA : Num A} (mu cov : nd A) n k l k' l' : nd_shape mu = [n] -> nd_shape cov = [n; n] ->
  selects n k l -> selects (length l) k' l' ->
  exists m c m' c', MultivariateNormal_getitem mu cov (Many k) = Ok (Multi_normal m c) /\
    MultivariateNormal_getitem m c (Many k') = Ok (Multi_normal m' c') /\
    nd_shape m' = [length l'] /\ nd_shape c' = [length l'; length l'] /\
    (forall i, nd_entry m' [i] = nd_entry mu [nth (nth i l' 0%nat) l 0%nat]) /\
    (forall i j, nd_entry c' [i; j] = nd_entry cov [nth (nth i l' 0%nat) l 0%nat; nth (nth j l' 0%nat) l 0%nat]).
Proof.
  intros Hm Hc S S'. destruct (normal_many mu cov n k l Hm Hc S) as (m & c & E & H1 & H2 & H3 & H4).
  destruct (normal_many m c (length l) k' l' H1 H2 S') as (m' & c' & E' & H1' & H2' & H3' & H4').
  exists m, c, m', c'. repeat split; auto; intros. now rewrite H3', H3. now rewrite H4', H4.
Qed.
Lemma many_int {A} {NA : Num A} (mu cov : nd A) n k l k' i k'' : nd_shape mu = [n] -> nd_shape cov = [n; n] ->
  selects n k l -> names (length l) k' i -> names n k'' (nth i l 0%nat) ->
  exists m c, MultivariateNormal_getitem mu cov (Many k) = Ok (Multi_normal m c) /\
    MultivariateNormal_getitem m c (PyInt k') = MultivariateNormal_getitem mu cov (PyInt k'').
Proof.
  intros Hm Hc S N N'. destruct (normal_many mu cov n k l Hm Hc S) as (m & c & E & H1 & H2 & H3 & H4).
  exists m, c. split; auto. rewrite (normal_int mu cov n k'' _ Hm Hc N').
  rewrite (normal_int m c (length l) k' i) by auto. now rewrite H3, H4.
Qed.

(** 1-d: the cumulant generating function is the logarithm of E exp(tX) *)
Lemma normal_mgf mu sigma t : 0 < sigma ->
  is_RInt_gen (fun x => exp (t * x) * pdf (Normal_dist (mkNormal mu sigma)) x) Fminf Finf
    (exp (normal_cgf 1 (fun _ => mu) (fun _ _ => sigma ^ 2) (fun _ => t))).
Proof.
  intros Hs.
  assert (HP := PI_RGT_0).
  pose proof (is_RInt_gen_gauss_prec (/ sigma ^ 2) (mu + sigma ^ 2 * t) ltac:(apply Rinv_0_lt_compat, pow_lt, Hs)) as H.
  apply (is_RInt_gen_mult_l _ _ _ (exp (t * mu + / 2 * (t * sigma ^ 2 * t)) / sqrt (2 * PI) / sigma)) in H.
  match type of H with is_RInt_gen _ _ _ ?l => replace (exp (normal_cgf _ _ _ _)) with l end.
  - revert H. apply (is_RInt_gen_ext_on _ _ _ ends_line). intros x _.
    change (pdf (Normal_dist (mkNormal mu sigma)) x) with (locscale std_norm mu sigma x).
    unfold locscale, std_norm.
    replace (- ((x - mu) / sigma) ^ 2 / 2) with (- (/ sigma ^ 2 * (x - (mu + sigma ^ 2 * t)) ^ 2) / 2 + (t * mu + / 2 * (t * sigma ^ 2 * t)) + - (t * x)) by (field; lra).
    rewrite !exp_plus, exp_Ropp. assert (0 < exp (t * x)) by apply exp_pos.
    assert (0 < sqrt (2 * PI)) by (apply sqrt_lt_R0; lra). field. lra.
  - unfold normal_cgf, sum_n. cbn [seq map fold_right]. rewrite !Rplus_0_r.
    replace (2 * PI / / sigma ^ 2) with (2 * PI * sigma ^ 2) by (field; lra).
    rewrite (sqrt_mult_alt (2 * PI) (sigma ^ 2)) by lra. rewrite sqrt_pow2 by lra.
    assert (0 < sqrt (2 * PI)) by (apply sqrt_lt_R0; lra). field. lra.
Qed.

(** indexing a t distribution gives the marginal only when the diagonal entry is 1 *)
Lemma t_index_wrong m1 m2 a b c nu : 0 < a -> 0 < det2 a b c -> 0 < nu ->
  (first_marginal (t2_pdf m1 m2 a b c nu) (pdf (StudentT_dist (mkStudentT m1 a nu))) <-> a = 1).
Proof.
  intros Ha Hd Hn. pose proof (t2_marginal m1 m2 a b c Ha Hd nu Hn) as T. split.
  - intros H. pose proof (is_RInt_gen_unique_on _ _ _ ends_line _ _ _ (H m1) (T m1)) as E.
    change (locscale (std_t nu) m1 a m1 = locscale (std_t nu) m1 (sqrt a) m1) in E.
    unfold locscale in E. unfold Rminus in E. rewrite Rplus_opp_r in E. unfold Rdiv in E. rewrite !Rmult_0_l in E.
    assert (Hs : 0 < sqrt a) by now apply sqrt_lt_R0.
    assert (0 < std_t nu 0).
    { unfold std_t. apply Rmult_lt_0_compat. apply Rdiv_lt_0_compat. apply Gamma_fun_pos. lra.
      apply Rmult_lt_0_compat. apply sqrt_lt_R0. assert (HP := PI_RGT_0). nra. apply Gamma_fun_pos. lra. apply exp_pos. }
    apply Rmult_eq_reg_l in E; [|lra]. apply (f_equal Rinv) in E; rewrite !Rinv_inv in E.
    assert (a * a = a) by (rewrite <- (sqrt_sqrt a) at 3 by lra; now rewrite <- E). nra.
  - intros ->. rewrite sqrt_1 in T. exact T.
Qed.

Lemma names_2_0 k : k = 0%Z \/ k = (-2)%Z -> names 2 k 0.
Proof. unfold names. lia. Qed.
Lemma names_2_1 k : k = 1%Z \/ k = (-1)%Z -> names 2 k 1.
Proof. unfold names. lia. Qed.

Lemma normal_index_marginal (mu cov : nd R) (a b c : R) :
  nd_shape mu = [2%nat] -> nd_shape cov = [2%nat; 2%nat] ->
  nd_entry cov [0%nat; 0%nat] = a -> nd_entry cov [0%nat; 1%nat] = b ->
  nd_entry cov [1%nat; 0%nat] = b -> nd_entry cov [1%nat; 1%nat] = c ->
  0 < a -> 0 < c -> 0 < det2 a b c ->
  let joint := normal2_pdf (nd_entry mu [0%nat]) (nd_entry mu [1%nat]) a b c in
  (forall k, k = 0%Z \/ k = (-2)%Z ->
     exists d, MultivariateNormal_getitem mu cov (PyInt k) = Ok (Univariate_normal d) /\ first_marginal joint (pdf (Normal_dist d))) /\
  (forall k, k = 1%Z \/ k = (-1)%Z ->
     exists d, MultivariateNormal_getitem mu cov (PyInt k) = Ok (Univariate_normal d) /\ second_marginal joint (pdf (Normal_dist d))).
Proof.
  intros Hm Hc Ea Eb _ Ec Ha Hcc Hd joint. split; intros k Hk.
  - eexists. split. apply (normal_int mu cov 2 k 0); auto using names_2_0. rewrite Ea. now apply normal2_marginal.
  - eexists. split. apply (normal_int mu cov 2 k 1); auto using names_2_1. rewrite Ec. now apply normal2_marginal2.
Qed.

Lemma t_index_marginal (mu sigma : nd R) (nu a b c : R) :
  nd_shape mu = [2%nat] -> nd_shape sigma = [2%nat; 2%nat] ->
  nd_entry sigma [0%nat; 0%nat] = a -> nd_entry sigma [0%nat; 1%nat] = b ->
  nd_entry sigma [1%nat; 0%nat] = b -> nd_entry sigma [1%nat; 1%nat] = c ->
  0 < nu -> 0 < a -> 0 < det2 a b c ->
  let joint := t2_pdf (nd_entry mu [0%nat]) (nd_entry mu [1%nat]) a b c nu in
  exists d, MultivariateStudentT_getitem mu sigma nu (PyInt 0) = Ok (Univariate_t d) /\
    (first_marginal joint (pdf (StudentT_dist d)) <-> a = 1) /\
    first_marginal joint (pdf (StudentT_dist (mkStudentT (StudentT_mu d) (sqrt (StudentT_sigma d)) (StudentT_nu d)))).
Proof.
  intros Hm Hc Ea Eb _ Ec Hn Ha Hd joint. eexists. split. apply (t_int mu sigma nu 2 0 0); auto using names_2_0.
  rewrite Ea. split. now apply t_index_wrong. now apply t2_marginal.
Qed.

Lemma both_many {A} {NA : Num A} (mu cov : nd A) (nu : A) n k l :
  nd_shape mu = [n] -> nd_shape cov = [n; n] -> selects n k l ->
  exists m c, MultivariateStudentT_getitem mu cov nu (Many k) = Ok (Multi_t m c nu) /\
    MultivariateNormal_getitem mu cov (Many k) = Ok (Multi_normal m c) /\
    nd_shape m = [length l] /\ nd_shape c = [length l; length l] /\
    (forall i, nd_entry m [i] = nd_entry mu [nth i l 0%nat]) /\
    (forall i j, nd_entry c [i; j] = nd_entry cov [nth i l 0%nat; nth j l 0%nat]).
Proof.
  intros Hm Hc S. destruct (sub_square mu cov n k l Hm Hc S) as (m & rows & c & E1 & E2 & E3 & H).
  exists m, c. split; [|split; auto]; simpl; rewrite E1, E2; simpl; rewrite E3; reflexivity.
Qed.
