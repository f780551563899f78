(** Shapes and laws of the two hand-written samplers, and of the sampled variances. *)

From Coq Require Import Reals ZArith String Lia Lra Bool.
From Coquelicot Require Import Coquelicot.
From Verif Require Import Model.Num Model.Py Model.Dists Model.ScipyDist Model.Models Model.Table Model.NdArray Model.MatrixModel Model.Sampling.
From Verif Require Import Spec.Shapes Spec.Densities Spec.Special Spec.Bayes Spec.Joint Spec.Sampling.
From Verif Require Import Analysis.Improper Analysis.RealAux Analysis.GammaFacts Proofs.Pdfs Proofs.Conj Proofs.Param Proofs.Shapes Proofs.Predictive Proofs.Sampling.
From Coq Require Import List.
Import ListNotations.
Local Close Scope R_scope.
Local Open Scope nat_scope.

(** ** Shapes *)
Lemma fits_trans s t u : fits s t -> fits t u -> fits s u.
Proof. apply fits_rev_trans. Qed.
Lemma fits_rev_refl s : fits_rev s s.
Proof. induction s; constructor; auto. Qed.
Lemma fits_rev_antisym s : forall t, fits_rev s t -> fits_rev t s -> s = t.
Proof.
  induction s as [|c s IH]; intros t H1 H2. now inversion H2.
  inversion H1; subst. inversion H2; subst. f_equal; [lia|]. now apply IH.
Qed.
Lemma fits_antisym s t : fits s t -> fits t s -> s = t.
Proof.
  intros H1 H2. pose proof (fits_rev_antisym _ _ H1 H2) as E. apply (f_equal (@rev nat)) in E. now rewrite !rev_involutive in E.
Qed.
Lemma fits_refl s : fits s s. Proof. apply fits_rev_refl. Qed.
Lemma joint_unique l u v : joint l u -> joint l v -> u = v.
Proof. intros [H1 H2] [H3 H4]. apply fits_antisym; auto. Qed.

Lemma broadcast_all_joint l : match broadcast_all l with Some u => joint l u | None => incompatible l end.
Proof.
  induction l as [|s l IH]; simpl.
  - split. constructor. intros u _. unfold fits. constructor.
  - destruct (broadcast_all l) as [u|].
    + destruct IH as [H1 H2]. pose proof (bcast_joint s u) as H. destruct (broadcast_shapes s u) as [v|].
      * destruct H as (Ha & Hb & Hc). split.
        -- constructor; auto. eapply Forall_impl; [|exact H1]. intros t Ht. apply fits_trans with u; auto.
        -- intros x Hx. inversion Hx; subst. auto.
      * intros (x & Hx). inversion Hx; subst. apply (H x); auto.
    + intros (x & Hx). inversion Hx; subst. apply IH. now exists x.
Qed.

Lemma broadcast_all_eq l u : joint l u -> broadcast_all l = Some u.
Proof.
  intros H. pose proof (broadcast_all_joint l) as H'. destruct (broadcast_all l) as [v|].
  - f_equal. eapply joint_unique; eauto.
  - exfalso. apply H'. destruct H. now exists u.
Qed.
Lemma broadcast_all_none l : incompatible l -> broadcast_all l = None.
Proof.
  intros H. pose proof (broadcast_all_joint l) as H'. destruct (broadcast_all l) as [v|]; auto.
  exfalso. apply H. destruct H'. now exists v.
Qed.

Lemma fits_rev_length s t : fits_rev s t -> length s <= length t.
Proof. induction 1; simpl; lia. Qed.
Lemma fits_length s t : fits s t -> length s <= length t.
Proof. intros H. apply fits_rev_length in H. now rewrite !rev_length in H. Qed.
Lemma dims_ok_fits s : forall t, fits_rev s t -> dims_ok s t = true.
Proof.
  induction s as [|c s IH]; intros t H; simpl; auto. inversion H; subst.
  rewrite IH by auto. rewrite andb_true_r. apply orb_true_iff. destruct H2 as [->| ->]; [left|right]; apply Nat.eqb_refl.
Qed.
Lemma squeeze_left_fits s : fits (squeeze_left s) s.
Proof.
  induction s as [|c s IH]. apply fits_refl. destruct c as [|[|c]]; try apply fits_refl. simpl.
  unfold fits in *. simpl. clear - IH. revert IH. generalize (rev (squeeze_left s)) (rev s). intros a b H.
  induction H; simpl; constructor; auto.
Qed.

Lemma rvs_shape_ok params s u : joint params s -> fits s u -> rvs_shape params (Some u) = Ok u.
Proof.
  intros Hj Hs. unfold rvs_shape. rewrite (broadcast_all_eq _ _ Hj).
  assert (H : fits (squeeze_left s) u) by (eapply fits_trans; [apply squeeze_left_fits|auto]).
  pose proof (fits_length _ _ H). replace (length (squeeze_left s) - length u) with 0 by lia. simpl.
  now rewrite dims_ok_fits.
Qed.

Lemma joint2 s u : fits s u -> joint [s; u] u.
Proof. intros H. split. constructor; auto. constructor; auto. apply fits_refl. intros x Hx. inversion Hx; subst. now inversion H3. Qed.
Lemma joint_same s : joint [s; s] s.
Proof. apply joint2, fits_refl. Qed.
Lemma joint_one s : joint [s] s.
Proof. split. constructor; auto. apply fits_refl. intros x Hx. now inversion Hx. Qed.

(** ** Indices under repeated broadcasting *)
Lemma proj_proj s : forall t i, fits_rev s t -> proj s (proj t i) = proj s i.
Proof.
  induction s as [|c s IH]; intros t i H; inversion H; subst; [now destruct (proj t i)|].
  destruct i as [|k i]; simpl.
  - rewrite <- (IH _ [] H4). destruct (Nat.eqb c 1); auto.
  - rewrite (IH _ _ H4). f_equal. destruct (Nat.eqb_spec c 1); auto. destruct H2; [congruence|subst]. now destruct (Nat.eqb_spec d 1).
Qed.
Lemma at_broadcast {A} (a : nd A) s i : fits (nd_shape a) s -> at_index i (broadcast_to s a) = at_index i a.
Proof.
  intros H. unfold at_index, broadcast_to; simpl. unfold at_index. rewrite !rev_involutive. now rewrite proj_proj.
Qed.

Section Shapes.
Context {A G : Type} {NA : Num A}.
Variable entries : request (nd A) -> G -> list nat -> A.
Variable advance : request (nd A) -> G -> G.
Variable from_seed : Z -> G.

Lemma bg_anatomy (a b : nd A) one_start size rs (w : @world A G) u : size <> Sz_int 0 ->
  joint [nd_shape a; nd_shape b; size_shape size] u ->
  returns (beta_geometric_rvs G entries advance from_seed a b one_start size rs) w (fun r w' =>
    nd_shape r = u /\ exists a' b' p g1 g2,
      let q1 := Q_beta a' b' (Some u) in let q2 := Q_geom p (Some u) in
      draws w w' [(q1, g1); (q2, g2)] /\ nd_shape p = u /\
      (forall i, at_index i a' = at_index i a /\ at_index i b' = at_index i b) /\
      (forall i, Forall2 lt i u -> at_index i p = entries q1 g1 i) /\
      (forall i, Forall2 lt i u -> nd_entry r i =
         if one_start then entries q2 g2 i else nsub (entries q2 g2 i) (nlit 1))).
Proof.
  intros Hs [H1 H2]. unfold beta_geometric_rvs.
  assert (Fa : fits (nd_shape a) u) by now inversion H1.
  assert (Fb : fits (nd_shape b) u) by (inversion H1; subst; now inversion H4).
  assert (Fs : fits (size_shape size) u) by (inversion H1; subst; inversion H4; subst; now inversion H6).
  pose proof (bcast_joint (nd_shape a) (nd_shape b)) as Hab. destruct (broadcast_shapes (nd_shape a) (nd_shape b)) as [s|].
  2: { exfalso. apply (Hab u); auto. }
  destruct Hab as (Fas & Fbs & Hmin). assert (Fu : fits s u) by auto.
  cbv zeta. cbn [nd_shape broadcast_to].
  assert (E : size_or_empty size = size_shape size) by (destruct size as [|[|n]|t]; simpl; congruence).
  rewrite (broadcast_all_eq [s; s; size_or_empty size] u).
  2: { rewrite E. split. repeat constructor; auto. intros x Hx. inversion Hx; subst. inversion H4; subst. inversion H6; subst.
       apply H2. repeat constructor; auto; apply fits_trans with s; auto. }
  eapply returns_bind. { apply (returns_draw entries advance from_seed rs _ u). simpl. apply (rvs_shape_ok _ s). apply joint_same. auto. }
  intros p w1 (g1 & Ep & _ & Hw1).
  eapply returns_bind. { apply (returns_draw entries advance from_seed rs _ u). simpl. rewrite Ep. apply (rvs_shape_ok _ u). apply joint_one. apply fits_refl. }
  intros r w2 (g2 & Er & _ & Hw2).
  assert (Hc : forall r', nd_shape r' = u ->
    (forall i, Forall2 lt i u -> nd_entry r' i =
         if one_start then entries (Q_geom p (Some u)) g2 i else nsub (entries (Q_geom p (Some u)) g2 i) (nlit 1)) ->
    nd_shape r' = u /\ exists a' b' p g1 g2,
      let q1 := Q_beta a' b' (Some u) in let q2 := Q_geom p (Some u) in
      draws w w2 [(q1, g1); (q2, g2)] /\ nd_shape p = u /\
      (forall i, at_index i a' = at_index i a /\ at_index i b' = at_index i b) /\
      (forall i, Forall2 lt i u -> at_index i p = entries q1 g1 i) /\
      (forall i, Forall2 lt i u -> nd_entry r' i =
         if one_start then entries q2 g2 i else nsub (entries q2 g2 i) (nlit 1))).
  { intros r' Hr' He. split; auto. exists (broadcast_to s a), (broadcast_to s b), p, g1, g2. cbv zeta.
    split. exact (draws_app _ _ _ _ _ Hw1 Hw2). split. now rewrite Ep. split. intros i; split; now apply at_broadcast.
    split; auto. intros i Hi. rewrite at_self by now rewrite Ep. now rewrite Ep. }
  destruct one_start.
  - apply returns_ret. apply Hc; rewrite Er; auto.
  - destruct (map2_scalar_r nsub r (scalar (nlit 1)) eq_refl) as (r' & Er' & Hs' & He').
    rewrite Er in Hs', He'. cbn [nd_shape] in Hs', He'. exists r', w2. split. unfold ret. f_equal. exact Er'. now apply Hc.
Qed.

Lemma bg_incompatible (a b : nd A) one_start size rs (w : @world A G) : size <> Sz_int 0 ->
  incompatible [nd_shape a; nd_shape b; size_shape size] ->
  raises (beta_geometric_rvs G entries advance from_seed a b one_start size rs) w cannot_broadcast.
Proof.
  intros Hs H. unfold beta_geometric_rvs.
  pose proof (bcast_joint (nd_shape a) (nd_shape b)) as Hab. destruct (broadcast_shapes (nd_shape a) (nd_shape b)) as [s|].
  2: { now exists w. }
  destruct Hab as (Fas & Fbs & Hmin). cbv zeta. cbn [nd_shape broadcast_to].
  assert (E : size_or_empty size = size_shape size) by (destruct size as [|[|n]|t]; simpl; congruence).
  rewrite broadcast_all_none. now exists w. rewrite E. intros (x & Hx). apply H. exists x.
  inversion Hx; subst. inversion H3; subst. inversion H5; subst. repeat constructor; auto; apply fits_trans with s; auto.
Qed.

(** [size=0] is taken for no size at all *)
Lemma bg_zero (a b : nd A) one_start rs :
  beta_geometric_rvs G entries advance from_seed a b one_start (Sz_int 0) rs
  = beta_geometric_rvs G entries advance from_seed a b one_start Sz_None rs.
Proof. reflexivity. Qed.
Lemma cg_zero (a b q : nd A) rs :
  compound_gamma_rvs G entries advance from_seed a b q (Sz_int 0) rs
  = compound_gamma_rvs G entries advance from_seed a b q Sz_None rs.
Proof. reflexivity. Qed.

Lemma cg_anatomy (a b q : nd A) size rs (w : @world A G) u : size <> Sz_int 0 ->
  joint [nd_shape a; nd_shape b; nd_shape q; size_shape size] u ->
  returns (compound_gamma_rvs G entries advance from_seed a b q size rs) w (fun r w' =>
    nd_shape r = squeeze_left u /\ exists a' b' scale rate rate' g1 g2,
      let q1 := Q_gamma b' scale (Some u) in let q2 := Q_gamma a' rate' None in
      draws w w' [(q1, g1); (q2, g2)] /\ nd_shape rate = u /\
      (forall i, at_index i a' = at_index i a /\ at_index i b' = at_index i b) /\
      (forall i, Forall2 lt i u -> at_index i scale = ndiv (nlit 1) (at_index i q)) /\
      (forall i, Forall2 lt i u -> at_index i rate = entries q1 g1 i) /\
      (forall i, Forall2 lt i u -> at_index i rate' = ndiv (nlit 1) (at_index i rate)) /\
      (forall i, nd_entry r i = entries q2 g2 i)).
Proof.
  intros Hs [H1 H2]. unfold compound_gamma_rvs.
  assert (Fa : fits (nd_shape a) u) by now inversion H1.
  assert (Fb : fits (nd_shape b) u) by (inversion H1; subst; now inversion H4).
  assert (Fq : fits (nd_shape q) u) by (inversion H1; subst; inversion H4; subst; now inversion H6).
  assert (Fs : fits (size_shape size) u) by (inversion H1; subst; inversion H4; subst; inversion H6; subst; now inversion H8).
  pose proof (broadcast_all_joint [nd_shape a; nd_shape b; nd_shape q]) as Hab.
  destruct (broadcast_all [nd_shape a; nd_shape b; nd_shape q]) as [s|].
  2: { exfalso. apply Hab. exists u. repeat constructor; auto. }
  destruct Hab as (Hall & Hmin). assert (Fu : fits s u) by (apply Hmin; repeat constructor; auto).
  assert (Fas : fits (nd_shape a) s) by now inversion Hall.
  assert (Fbs : fits (nd_shape b) s) by (inversion Hall; subst; now inversion H4).
  assert (Fqs : fits (nd_shape q) s) by (inversion Hall; subst; inversion H4; subst; now inversion H6).
  cbv zeta. cbn [nd_shape broadcast_to].
  assert (E : size_or_empty size = size_shape size) by (destruct size as [|[|n]|t]; simpl; congruence).
  rewrite (broadcast_all_eq [s; s; s; size_or_empty size] u).
  2: { rewrite E. split. repeat constructor; auto. intros x Hx. inversion Hx; subst. inversion H4; subst. inversion H6; subst. inversion H8; subst.
       apply H2. repeat constructor; auto; apply fits_trans with s; auto. }
  destruct (map2_scalar_l ndiv (scalar (nlit 1)) (broadcast_to s q) eq_refl) as (sc & Esc & Hsc & Hsce).
  cbn [nd_shape broadcast_to] in Hsc, Hsce.
  eapply returns_ok. exact Esc.
  eapply returns_bind. { apply (returns_draw entries advance from_seed rs _ u). simpl. rewrite Hsc. apply (rvs_shape_ok _ s). apply joint_same. auto. }
  intros rb w1 (g1 & Er & _ & Hw1).
  destruct (map2_scalar_l ndiv (scalar (nlit 1)) rb eq_refl) as (sc' & Esc' & Hsc' & Hsce').
  assert (Hrb : nd_shape rb = u) by now rewrite Er. rewrite Hrb in Hsc', Hsce'.
  eapply returns_ok. exact Esc'.
  eapply returns_mono. 2: { apply (returns_draw entries advance from_seed rs _ (squeeze_left u)). simpl. rewrite Hsc'.
    unfold rvs_shape. rewrite (broadcast_all_eq [s; u] u). reflexivity. now apply joint2. }
  intros r w2 (g2 & Err & _ & Hw2). split. now rewrite Err.
  exists (broadcast_to s a), (broadcast_to s b), sc, rb, sc', g1, g2. cbv zeta.
  split. exact (draws_app _ _ _ _ _ Hw1 Hw2). split; auto. split. intros i; split; now apply at_broadcast.
  split; [|split; [|split]].
  - intros i Hi. unfold map2 in Esc. rewrite bc_nil_l in Esc. injection Esc as <-.
    unfold at_index at 1. cbn [nd_shape nd_entry scalar]. set (j := rev (proj (rev s) (rev i))).
    assert (Ej : forall a : nd A, fits (nd_shape a) s -> at_index j a = at_index i a).
    { intros x Hx. unfold at_index, j. rewrite rev_involutive. do 2 f_equal. now apply proj_proj. }
    cbn [nlit]. f_equal. transitivity (at_index j q). now apply at_broadcast. now apply Ej.
  - intros i Hi. rewrite at_self by now rewrite Hrb. now rewrite Er.
  - intros i Hi. rewrite !at_self by congruence. rewrite Hsce' by auto. reflexivity.
  - intros i. now rewrite Err.
Qed.

Lemma cg_incompatible (a b q : nd A) size rs (w : @world A G) : size <> Sz_int 0 ->
  incompatible [nd_shape a; nd_shape b; nd_shape q; size_shape size] ->
  raises (compound_gamma_rvs G entries advance from_seed a b q size rs) w cannot_broadcast.
Proof.
  intros Hs H. unfold compound_gamma_rvs.
  pose proof (broadcast_all_joint [nd_shape a; nd_shape b; nd_shape q]) as Hab.
  destruct (broadcast_all [nd_shape a; nd_shape b; nd_shape q]) as [s|].
  2: { now exists w. }
  destruct Hab as (Hall & Hmin). cbv zeta. cbn [nd_shape broadcast_to].
  assert (E : size_or_empty size = size_shape size) by (destruct size as [|[|n]|t]; simpl; congruence).
  rewrite broadcast_all_none. now exists w. rewrite E. intros (x & Hx). apply H. exists x.
  repeat match goal with H : Forall _ (_ :: _) |- _ => inversion H; clear H; subst end.
  repeat (constructor; [now apply fits_trans with s|]). auto.
Qed.

Lemma squeeze_left_iff u : squeeze_left u = u <-> hd 0 u <> 1.
Proof.
  split.
  - intros H E. destruct u as [|[|[|c]] u]; simpl in *; try discriminate; try lia.
    pose proof (fits_length _ _ (squeeze_left_fits u)). rewrite H in H0. simpl in H0. lia.
  - intros H. destruct u as [|[|[|c]] u]; simpl in *; auto. lia.
Qed.

End Shapes.

(** ** Laws *)
Local Close Scope nat_scope.
Local Open Scope R_scope.

(** A gamma variate tau, sent to 1 / (lam tau), is inverse gamma with scale beta / lam. *)
Lemma continuous_gamma_pdf a b t : 0 < b -> 0 < t -> continuous (pdf (S_gamma_scale a (1 / b))) t.
Proof.
  intros Hb Ht.
  apply (continuous_ext_loc _ (fun t => Rpower b a / Gamma_fun a * (Rpower t (a - 1) * exp (- (b * t))))).
  - exists (mkposreal t Ht). intros y Hy. symmetry. apply gamma_pdf; auto.
    apply Rabs_def2 in Hy. change (y - t < t /\ - t < y - t) in Hy. lra.
  - apply (continuous_scal_r (V:=R_NormedModule) (Rpower b a / Gamma_fun a) (fun t => Rpower t (a - 1) * exp (- (b * t)))).
    apply (continuous_mult (fun t => Rpower t (a - 1)) (fun t => exp (- (b * t)))). now apply continuous_Rpower.
    apply (ex_derive_continuous (V:=R_NormedModule)). auto_derive; auto.
Qed.

Lemma inverted_gamma_law a b lam c d : 0 < b -> 0 < lam -> 0 < c -> c <= d ->
  exists p, is_RInt (pdf (S_gamma_scale a (1 / b))) (1 / (lam * d)) (1 / (lam * c)) p /\
            is_RInt (pdf (S_invgamma_scale a (b / lam))) c d p.
Proof.
  intros Hb Hl Hc Hcd.
  pose (f := pdf (S_gamma_scale a (1 / b))). pose (phi := fun v => 1 / (lam * v)). pose (dphi := fun v => - (1 / (lam * v ^ 2))).
  assert (Hphi : forall v, 0 < v -> 0 < phi v). { intros v Hv. unfold phi. apply Rdiv_lt_0_compat. lra. now apply Rmult_lt_0_compat. }
  assert (Hcf : forall x, 0 < x -> continuous f x) by (intros; now apply continuous_gamma_pdf).
  assert (Hle : phi d <= phi c).
  { unfold phi. unfold Rdiv. rewrite !Rmult_1_l. apply Rinv_le_contravar. now apply Rmult_lt_0_compat. apply Rmult_le_compat_l; lra. }
  assert (Hex : ex_RInt f (phi d) (phi c)).
  { apply (ex_RInt_continuous (V:=R_CompleteNormedModule)). intros z Hz. apply Hcf.
    rewrite Rmin_left in Hz by auto. pose proof (Hphi d ltac:(lra)). lra. }
  exists (RInt f (phi d) (phi c)). split. { exact (RInt_correct (V:=R_CompleteNormedModule) f _ _ Hex). }
  assert (Hcomp : is_RInt (fun y => scal (dphi y) (f (phi y))) c d (RInt f (phi c) (phi d))).
  { apply (is_RInt_comp (V:=R_CompleteNormedModule)).
    - intros x Hx. rewrite Rmin_left in Hx by auto. apply Hcf, Hphi. lra.
    - intros x Hx. rewrite Rmin_left in Hx by auto. split.
      + unfold phi, dphi. auto_derive. nra. simpl. unfold Rdiv. field. split; nra || lra.
      + apply (ex_derive_continuous (V:=R_NormedModule)). unfold dphi. auto_derive. simpl.
        assert (0 < lam * (x * x)) by (apply Rmult_lt_0_compat; nra). nra. }
  apply (is_RInt_opp (V:=R_NormedModule)) in Hcomp.
  pose proof (opp_RInt_swap (V:=R_CompleteNormedModule) f (phi c) (phi d) (ex_RInt_swap _ _ _ Hex)) as Es. rewrite <- Es.
  eapply is_RInt_ext; [|exact Hcomp]. intros x Hx. rewrite Rmin_left, Rmax_right in Hx by auto. cbv beta.
  assert (Hx0 : 0 < x) by lra. unfold f. rewrite gamma_pdf by auto.
  rewrite invgamma_pdf by (auto; now apply Rdiv_lt_0_compat).
  change (- (dphi x * (Rpower b a / Gamma_fun a * (Rpower (phi x) (a - 1) * exp (- (b * phi x)))))
     = Rpower (b / lam) a / Gamma_fun a * (Rpower x (- a - 1) * exp (- (b / lam / x)))).
  unfold phi, dphi. replace (b * (1 / (lam * x))) with (b / lam / x) by (field; lra).
  assert (E : 1 / (lam * x ^ 2) * Rpower (1 / (lam * x)) (a - 1) = Rpower (/ lam) a * Rpower x (- a - 1)).
  { assert (Hlx : 0 < lam * x) by now apply Rmult_lt_0_compat.
    replace (1 / (lam * x)) with (/ (lam * x)) by (field; lra).
    assert (HI : forall y z, 0 < y -> Rpower (/ y) z = Rpower y (- z)).
    { intros y z Hy. unfold Rpower. rewrite ln_Rinv by auto. f_equal. ring. }
    rewrite !HI, <- Rpower_mult_distr by auto.
    replace (- (a - 1)) with (- a + 1) by ring. replace (- a - 1) with (- a + 1 + - INR 2) by (simpl; ring).
    rewrite !Rpower_plus, (Rpower_Ropp x (INR 2)), !Rpower_1, Rpower_pow by auto. field. split; lra. }
  replace (Rpower (b / lam) a) with (Rpower b a * Rpower (/ lam) a).
  2: { unfold Rdiv. rewrite Rpower_mult_distr; auto. now apply Rinv_0_lt_compat. }
  transitivity (1 / (lam * x ^ 2) * Rpower (1 / (lam * x)) (a - 1) * (Rpower b a / Gamma_fun a * exp (- (b / lam / x)))).
  ring. rewrite E. unfold Rdiv. ring.
Qed.

Section Laws.
Context {G : Type}.
Variable entries : request (nd R) -> G -> list nat -> R.
Variable advance : request (nd R) -> G -> G.
Variable from_seed : Z -> G.

(** The same draws through both parametrisations of the same prior *)
Lemma coupled_variance (d1 : NormalInverseGamma (nd R) (nd R) (nd R)) (d2 : NormalGamma (nd R)) k rs (w : @world R G) :
  inverts_gamma entries ->
  NormalGamma_alpha d2 = NormalInverseGamma_alpha d1 -> NormalGamma_beta d2 = NormalInverseGamma_beta d1 ->
  nd_shape (NormalGamma_lam d2) = [] -> nd_shape (NormalInverseGamma_alpha d1) = [] -> nd_shape (NormalInverseGamma_beta d1) = [] ->
  returns (NormalInverseGamma_sample_variance G entries advance from_seed d1 k rs) w (fun v1 _ =>
  returns (NormalGamma_sample_variance G entries advance from_seed d2 k rs) w (fun v2 _ =>
    nd_shape v1 = [k] /\ nd_shape v2 = [k] /\
    forall i, (i < k)%nat -> nd_entry v2 [i] = nd_entry v1 [i] / nd_entry (NormalGamma_lam d2) [])).
Proof.
  intros Hinv Ea Eb Hl Ha Hb.
  apply returns_rvs with [k]. { simpl. rewrite Ha, Hb. reflexivity. }
  unfold NormalGamma_sample_variance. simpl. rewrite Ea, Eb.
  destruct (map2_scalar_l Rdiv (scalar 1) (NormalInverseGamma_beta d1) eq_refl) as (sc & Esc & Hsc & Hsce).
  rewrite Hb in Hsc, Hsce.
  eapply returns_ok. exact Esc. eapply returns_bind. { apply returns_draw. simpl. rewrite Ha, Hsc. apply rvs_shape_scalars. }
  intros t w1 (g1 & Et & Eg & Hw1). assert (Hts : nd_shape t = [k]) by now rewrite Et.
  destruct (map2_scalar_vec Rmult (NormalGamma_lam d2) t k Hl Hts) as (p & Ep & Hps & Hpe).
  destruct (map2_scalar_vec Rdiv (scalar 1) p k eq_refl Hps) as (v & Evv & Hvs & Hve).
  eapply returns_ok. exact Ep. exists v, w1. split. unfold ret. f_equal. exact Evv.
  split; auto. split; auto. intros i Hi. rewrite Hve, Hpe, Et by auto. cbn [nd_entry scalar].
  rewrite (Hinv _ _ sc); auto.
  - subst g1. unfold Rdiv. rewrite Rinv_mult. ring.
  - rewrite Hsce by constructor. simpl. unfold Rdiv. ring.
Qed.

Lemma nig_law (d : NormalInverseGamma (nd R) (nd R) (nd R)) nu k rs w :
  NormalInverseGamma_delta_inverse d = None -> NormalInverseGamma_nu d = Some nu -> nd_shape nu = [] ->
  nd_shape (NormalInverseGamma_mu d) = [] -> nd_shape (NormalInverseGamma_alpha d) = [] -> nd_shape (NormalInverseGamma_beta d) = [] ->
  returns (NormalInverseGamma_sample_beta G entries advance from_seed d k true rs) w (fun r w' =>
    exists beta v q1 q2 g1 g2, r = (beta, Some v) /\ draws w w' [(q1, g1); (q2, g2)] /\
      forall i, (i < k)%nat -> nd_entry v [i] = entries q1 g1 [i] /\ nd_entry beta [i] = entries q2 g2 [i] /\
        forall m, request_pdf q1 [i] (nd_entry v [i]) * request_pdf q2 [i] m =
          nig_pdf (nd_entry (NormalInverseGamma_mu d) []) (nd_entry nu []) (nd_entry (NormalInverseGamma_alpha d) [])
                  (nd_entry (NormalInverseGamma_beta d) []) m (nd_entry v [i])).
Proof.
  intros H1 H2 H3 H4 H5 H6.
  eapply returns_mono; [|exact (nig_1d_anatomy entries advance from_seed d nu k true rs w H1 H2 H3 H4 H5 H6)].
  intros r w' (beta & v & sigma & g1 & g2 & Er & Hbs & Hvs & Hss & Hd & He).
  exists beta, v. do 4 eexists. split. exact Er. split. exact Hd. intros i Hi. destruct (He i Hi) as (Ev & Es & Eb).
  split; auto. split; auto. intros m. unfold request_pdf, nig_pdf. rewrite !at_scalar by auto.
  rewrite (at_self sigma) by (rewrite Hss; auto). rewrite Es. reflexivity.
Qed.

Lemma ng_law (d : NormalGamma (nd R)) k rs w :
  nd_shape (NormalGamma_mu d) = [] -> nd_shape (NormalGamma_lam d) = [] ->
  nd_shape (NormalGamma_alpha d) = [] -> nd_shape (NormalGamma_beta d) = [] ->
  returns (NormalGamma_sample_beta G entries advance from_seed d k true rs) w (fun r w' =>
    exists beta v tau q1 q2 g1 g2, r = (beta, Some v) /\ draws w w' [(q1, g1); (q2, g2)] /\
      forall i, (i < k)%nat -> tau i = entries q1 g1 [i] /\ nd_entry beta [i] = entries q2 g2 [i] /\
        nd_entry v [i] = 1 / (nd_entry (NormalGamma_lam d) [] * tau i) /\
        (0 < nd_entry (NormalGamma_lam d) [] * tau i ->
         forall m, request_pdf q1 [i] (tau i) * request_pdf q2 [i] m =
          ng_pdf (nd_entry (NormalGamma_mu d) []) (nd_entry (NormalGamma_lam d) []) (nd_entry (NormalGamma_alpha d) [])
                 (nd_entry (NormalGamma_beta d) []) m (tau i))).
Proof.
  intros H1 H2 H3 H4.
  eapply returns_mono; [|exact (ng_anatomy entries advance from_seed d k true rs w H1 H2 H3 H4)].
  intros r w' (beta & v & scale & sigma & g1 & g2 & Er & Hbs & Hvs & Hss & Hscs & Hsce & Hd & _ & He).
  exists beta, v. eexists (fun i => _). do 4 eexists. split. exact Er. split. exact Hd. intros i Hi. destruct (He i Hi) as (Ev & Es & Eb).
  split. reflexivity. split; auto. split; auto. intros Hpos m. unfold request_pdf, ng_pdf. rewrite !at_scalar by auto.
  rewrite (at_self sigma) by (rewrite Hss; auto). rewrite Es, Ev, Hsce. simpl nsqrt. simpl ndiv. simpl nlit. simpl nmul.
  unfold Rdiv. rewrite !Rmult_1_l. rewrite sqrt_inv. reflexivity.
Qed.

Lemma bg_law (a b : nd R) one_start size rs (w : @world R G) u : size <> Sz_int 0 ->
  joint [nd_shape a; nd_shape b; size_shape size] u ->
  returns (beta_geometric_rvs G entries advance from_seed a b one_start size rs) w (fun r w' =>
    exists q1 q2 g1 g2, draws w w' [(q1, g1); (q2, g2)] /\ forall i, Forall2 lt i u ->
      nd_entry r i = entries q2 g2 i - (if one_start then 0 else 1) /\
      (forall k, request_pmf q2 i k = pmf (S_geom_loc (entries q1 g1 i) 0) k) /\
      (0 < at_index i a -> 0 < at_index i b -> forall k : nat,
         marginal Fpos0 Fone (request_pdf q1 i) (fun p => pmf (S_geom_loc p 0) (Z.of_nat k + 1))
           (Beta_fun (at_index i a + 1) (INR k + at_index i b) / Beta_fun (at_index i a) (at_index i b)))).
Proof.
  intros Hs Hj. eapply returns_mono; [|exact (bg_anatomy entries advance from_seed a b one_start size rs w u Hs Hj)].
  intros r w' (_ & a' & b' & p & g1 & g2 & Hd & Hp & Hab & Hpe & Hr). do 4 eexists. split. exact Hd. intros i Hi.
  destruct (Hab i) as [Ea Eb]. split; [|split].
  - rewrite Hr by auto. destruct one_start; simpl; ring.
  - intros k. simpl. now rewrite Hpe.
  - intros Pa Pb k. unfold request_pdf. rewrite Ea, Eb. exact (geometric_marginal (mkBeta (at_index i a) (at_index i b)) true k Pa Pb).
Qed.

Lemma cg_law (a b q : nd R) size rs (w : @world R G) u : size <> Sz_int 0 ->
  joint [nd_shape a; nd_shape b; nd_shape q; size_shape size] u -> hd 0%nat u <> 1%nat ->
  returns (compound_gamma_rvs G entries advance from_seed a b q size rs) w (fun r w' =>
    nd_shape r = u /\ exists q1 q2 g1 g2, draws w w' [(q1, g1); (q2, g2)] /\ forall i, Forall2 lt i u ->
      nd_entry r i = entries q2 g2 i /\
      (forall x, request_pdf q2 i x = pdf (S_gamma_scale (at_index i a) (1 / entries q1 g1 i)) x) /\
      (0 < at_index i a -> 0 < at_index i b -> 0 < at_index i q -> forall x, 0 < x ->
         marginal Fpos0 Finf (request_pdf q1 i) (fun rate => pdf (S_gamma_scale (at_index i a) (1 / rate)) x)
           (pdf (C_compound_gamma (at_index i a) (at_index i b) (at_index i q)) x))).
Proof.
  intros Hs Hj Hu. eapply returns_mono; [|exact (cg_anatomy entries advance from_seed a b q size rs w u Hs Hj)].
  intros r w' (Hsh & a' & b' & scale & rate & rate' & g1 & g2 & Hd & Hp & Hab & Hsc & Hra & Hra' & Hr).
  apply squeeze_left_iff in Hu. rewrite Hu in Hsh. split; auto. do 4 eexists. split. exact Hd. intros i Hi.
  destruct (Hab i) as [Ea Eb]. split; [|split].
  - apply Hr.
  - intros x. unfold request_pdf. rewrite Ea, Hra', Hra by auto. reflexivity.
  - intros Pa Pb Pq x Hx. unfold request_pdf. rewrite Eb, Hsc by auto.
    exact (gamma_known_shape_predictive_marginal (mkGamma (at_index i b) (at_index i q)) (at_index i a) x Pb Pq Pa Hx).
Qed.

(** With an integer seed, the vectors of one call lie on a line through the mean *)
Lemma nig_collinear (d : NormalInverseGamma (nd R) (nd R) (nd R)) D n k seed w :
  affine_normal n entries ->
  NormalInverseGamma_delta_inverse d = Some D -> nd_shape D = [n; n] -> nd_shape (NormalInverseGamma_mu d) = [n] ->
  nd_shape (NormalInverseGamma_alpha d) = [] -> nd_shape (NormalInverseGamma_beta d) = [] -> (2 <= n)%nat -> (0 < k)%nat ->
  returns (NormalInverseGamma_sample_beta G entries advance from_seed d k true (RS_int seed)) w (fun r _ =>
    exists beta v, r = (beta, Some v) /\ nd_shape beta = [k; n] /\ nd_shape v = [k] /\
    ((forall i, (i < k)%nat -> 0 <= nd_entry v [i]) -> exists direction : nat -> R,
      forall i j, (i < k)%nat -> (j < n)%nat ->
        nd_entry beta [i; j] = nd_entry (NormalInverseGamma_mu d) [j] + sqrt (nd_entry v [i]) * direction j)).
Proof.
  intros (F & z & HF & Hh) HD HDs Hmu Ha Hb Hn Hk.
  eapply returns_mono; [|exact (nig_nd_anatomy entries advance from_seed d D n k true (RS_int seed) w HD HDs Hmu Ha Hb Hn Hk)].
  intros r _ (beta & v & gs & Er & Hbs & Hvs & Hv & Hgs & He). exists beta, v. repeat (split; auto). intros Hpos.
  exists (fun j => fold_right Rplus 0 (map (fun t => F D j t * z (from_seed seed) t) (seq 0 n))).
  intros i j Hi Hj. destruct (He i Hi) as (cov & Hcs & Hce & E). rewrite E, HF, (Hgs seed eq_refl) by auto. f_equal.
  rewrite (map_ext_in _ (fun t => sqrt (nd_entry v [i]) * (F D j t * z (from_seed seed) t))).
  - generalize (seq 0 n). induction l as [|t l IH]; simpl. ring. rewrite IH. ring.
  - intros t Ht. apply in_seq in Ht. rewrite (Hh (nd_entry v [i]) D cov j t); auto; try lia. ring.
    intros p q Hp Hq. rewrite Hce by auto. simpl. ring.
Qed.

End Laws.

Lemma reseeds_not_distinct {A G T} (from_seed : Z -> G) z (m : @samp A G T) w r w' l :
  reseeds from_seed z m -> m w = (r, w') -> draws w w' l -> (2 <= length l)%nat -> ~ distinct_draws l.
Proof.
  intros Hm E Hl Hlen. destruct (Hm _ _ _ E) as (_ & _ & l' & Hl' & Hf).
  assert (l = l') as <-. { unfold draws in *. rewrite Hl in Hl'. now apply app_inv_head in Hl'. }
  destruct l as [|[q1 g1] [|[q2 g2] l]]; simpl in Hlen; try lia. unfold distinct_draws. simpl.
  intros Hn. inversion Hf; subst. inversion H2; subst. simpl in *. inversion Hn; subst. apply H5. now left.
Qed.

Lemma counter_never_repeats {A} : never_repeats (A := A) (fun _ => S).
Proof.
  assert (H : forall g l g', chain (A := A) (fun _ => S) g l g' -> (g' = g + length l)%nat).
  { induction 1; simpl in *; lia. }
  intros g l g' Hc Hl. apply H in Hc. destruct l; [congruence|simpl in *; lia].
Qed.
