(** [return_variance] and np.stack. *)

From Coq Require Import List String ZArith Lia.
From Verif Require Import Model.Num Model.Py Model.Dists Model.NdArray Model.MatrixModel Model.Sampling Spec.ReturnVariance.
Import ListNotations.
Open Scope string_scope.

Section Samplers.
Context {A : Type} {NA : Num A}.
Variable G : Type.
Variable entries : request (nd A) -> G -> list nat -> A.
Variable advance : request (nd A) -> G -> G.
Variable from_seed : Z -> G.

Lemma adds_general (var : @samp A G (nd A)) (f : nd A -> @samp A G (nd A)) :
  only_adds_variance (fun rv => sbind G var (fun v => sbind G (f v) (fun m => with_variance G rv m v))) var /\
  raises_with (fun rv => sbind G var (fun v => sbind G (f v) (fun m => with_variance G rv m v))) var.
Proof.
  unfold only_adds_variance, raises_with, sbind, with_variance, ret. split.
  - intros w. destruct (var w) as [[v|e0] w1] eqn:E.
    + destruct (f v w1) as [[m0|e0] w2] eqn:F.
      * split; [intros; split; discriminate|]. split.
        -- intros m o w'. split.
           ++ intros H. injection H as <- <- <-. split; [reflexivity|]. exists v. split; [reflexivity|]. now exists w1.
           ++ intros (-> & v' & H & w'' & H'). injection H as <- <- <-. reflexivity.
        -- intros m o w' H. injection H as <- <- <-. discriminate.
      * split; [intros; reflexivity|]. split.
        -- intros m o w'. split; [discriminate|]. intros (_ & v' & H & _). discriminate.
        -- intros m o w' H. discriminate.
    + split; [intros; reflexivity|]. split.
      * intros m o w'. split; [discriminate|]. intros (_ & v' & H & _). discriminate.
      * intros m o w' H. discriminate.
  - intros rv w e w' H. now rewrite H.
Qed.

Lemma nig_adds (d : NormalInverseGamma (nd A) (nd A) (nd A)) k rs :
  only_adds_variance (fun rv => NormalInverseGamma_sample_beta G entries advance from_seed d k rv rs)
    (NormalInverseGamma_sample_variance G entries advance from_seed d k rs) /\
  raises_with (fun rv => NormalInverseGamma_sample_beta G entries advance from_seed d k rv rs)
    (NormalInverseGamma_sample_variance G entries advance from_seed d k rs).
Proof.
  exact (adds_general (NormalInverseGamma_sample_variance G entries advance from_seed d k rs)
    (fun v => match NormalInverseGamma_delta_inverse d with
              | None => NormalInverseGamma_sample_beta_1d G entries advance from_seed d v k rs
              | Some di => NormalInverseGamma_sample_beta_nd G entries advance from_seed d di v rs
              end)).
Qed.

Lemma nig_mean_adds (d : NormalInverseGamma (nd A) (nd A) (nd A)) k rs :
  only_adds_variance (fun rv => NormalInverseGamma_sample_mean G entries advance from_seed d k rv rs)
    (NormalInverseGamma_sample_variance G entries advance from_seed d k rs) /\
  raises_with (fun rv => NormalInverseGamma_sample_mean G entries advance from_seed d k rv rs)
    (NormalInverseGamma_sample_variance G entries advance from_seed d k rs).
Proof. exact (nig_adds d k rs). Qed.

Lemma ng_adds (d : NormalGamma (nd A)) k rs :
  only_adds_variance (fun rv => NormalGamma_sample_beta G entries advance from_seed d k rv rs)
    (NormalGamma_sample_variance G entries advance from_seed d k rs) /\
  raises_with (fun rv => NormalGamma_sample_beta G entries advance from_seed d k rv rs)
    (NormalGamma_sample_variance G entries advance from_seed d k rs).
Proof.
  pose proof (adds_general (NormalGamma_sample_variance G entries advance from_seed d k rs)
    (fun v => sbind G (ret G (nsqrt (Ok v))) (fun sigma => rvs G entries advance from_seed rs (Q_norm (NormalGamma_mu d) sigma (Some [k]))))) as H.
  assert (E : forall rv w, NormalGamma_sample_beta G entries advance from_seed d k rv rs w =
    sbind G (NormalGamma_sample_variance G entries advance from_seed d k rs) (fun v =>
      sbind G (sbind G (ret G (nsqrt (Ok v))) (fun sigma => rvs G entries advance from_seed rs (Q_norm (NormalGamma_mu d) sigma (Some [k]))))
        (fun m => with_variance G rv m v)) w).
  { intros rv w. unfold NormalGamma_sample_beta, sbind, ret. destruct (NormalGamma_sample_variance _ _ _ _ _ _ _ w) as [[v|e] w1]; [|reflexivity].
    destruct (nsqrt (Ok v)); reflexivity. }
  destruct H as (H1 & H2). split.
  - intros w. rewrite !E. exact (H1 w).
  - intros rv w e w' Hr. rewrite E. exact (H2 rv w e w' Hr).
Qed.

Lemma ng_mean_adds (d : NormalGamma (nd A)) k rs :
  only_adds_variance (fun rv => NormalGamma_sample_mean G entries advance from_seed d k rv rs)
    (NormalGamma_sample_variance G entries advance from_seed d k rs) /\
  raises_with (fun rv => NormalGamma_sample_mean G entries advance from_seed d k rv rs)
    (NormalGamma_sample_variance G entries advance from_seed d k rs).
Proof. exact (ng_adds d k rs). Qed.

Lemma niw_adds (d : NormalInverseWishart (nd A)) k rs :
  only_adds_variance (fun rv => NormalInverseWishart_sample_mean G entries advance from_seed d k rv rs)
    (NormalInverseWishart_sample_variance G entries advance from_seed d k rs) /\
  raises_with (fun rv => NormalInverseWishart_sample_mean G entries advance from_seed d k rv rs)
    (NormalInverseWishart_sample_variance G entries advance from_seed d k rs).
Proof.
  exact (adds_general (NormalInverseWishart_sample_variance G entries advance from_seed d k rs)
    (fun v => stacked_means G entries advance from_seed (NormalInverseWishart_mu d) v rs)).
Qed.

Lemma nw_adds inv (d : NormalWishart (nd A)) k rs :
  only_adds_variance (fun rv => NormalWishart_sample_mean G entries advance from_seed inv d k rv rs)
    (NormalWishart_sample_variance G entries advance from_seed inv d k rs) /\
  raises_with (fun rv => NormalWishart_sample_mean G entries advance from_seed inv d k rv rs)
    (NormalWishart_sample_variance G entries advance from_seed inv d k rs).
Proof.
  exact (adds_general (NormalWishart_sample_variance G entries advance from_seed inv d k rs)
    (fun v => stacked_means G entries advance from_seed (NormalWishart_mu d) v rs)).
Qed.

(** two names for one method *)
Lemma nig_two_names (d : NormalInverseGamma (nd A) (nd A) (nd A)) k rv rs w :
  NormalInverseGamma_sample_mean G entries advance from_seed d k rv rs w = NormalInverseGamma_sample_beta G entries advance from_seed d k rv rs w.
Proof. reflexivity. Qed.

Lemma ng_two_names (d : NormalGamma (nd A)) k rv rs w :
  NormalGamma_sample_mean G entries advance from_seed d k rv rs w = NormalGamma_sample_beta G entries advance from_seed d k rv rs w.
Proof. reflexivity. Qed.

Lemma nig_full (d : NormalInverseGamma (nd A) (nd A) (nd A)) k rs :
  let mean rv := NormalInverseGamma_sample_mean G entries advance from_seed d k rv rs in
  let beta rv := NormalInverseGamma_sample_beta G entries advance from_seed d k rv rs in
  let variance := NormalInverseGamma_sample_variance G entries advance from_seed d k rs in
  only_adds_variance mean variance /\ raises_with mean variance /\
  only_adds_variance beta variance /\ raises_with beta variance /\ forall rv w, mean rv w = beta rv w.
Proof.
  intros mean beta variance. destruct (nig_adds d k rs) as (H1 & H2). destruct (nig_mean_adds d k rs) as (H3 & H4).
  exact (conj H3 (conj H4 (conj H1 (conj H2 (fun rv => nig_two_names d k rv rs))))).
Qed.

Lemma ng_full (d : NormalGamma (nd A)) k rs :
  let mean rv := NormalGamma_sample_mean G entries advance from_seed d k rv rs in
  let beta rv := NormalGamma_sample_beta G entries advance from_seed d k rv rs in
  let variance := NormalGamma_sample_variance G entries advance from_seed d k rs in
  only_adds_variance mean variance /\ raises_with mean variance /\
  only_adds_variance beta variance /\ raises_with beta variance /\ forall rv w, mean rv w = beta rv w.
Proof.
  intros mean beta variance. destruct (ng_adds d k rs) as (H1 & H2). destruct (ng_mean_adds d k rs) as (H3 & H4).
  exact (conj H3 (conj H4 (conj H1 (conj H2 (fun rv => ng_two_names d k rv rs))))).
Qed.

End Samplers.

Lemma stack_cases {A} (l : list (nd A)) :
  match l with
  | [] => stack l = Raise (ValueError "need at least one array to stack")
  | a :: _ =>
      (same_shapes l -> exists r, stack l = Ok r /\ nd_shape r = List.length l :: nd_shape a /\
         forall k i b, nth_error l k = Some b -> nd_entry r (k :: i) = nd_entry b i) /\
      (~ same_shapes l -> stack l = Raise (ValueError "all input arrays must have the same shape"))
  end.
Proof.
  destruct l as [|a l]; [reflexivity|].
  assert (E : forallb (fun b => shape_eqb (nd_shape b) (nd_shape a)) (a :: l) = true <-> same_shapes (a :: l)).
  { rewrite forallb_forall. unfold shape_eqb. split.
    - intros H x y Hx Hy. pose proof (H x Hx) as H1. pose proof (H y Hy) as H2.
      destruct (list_eq_dec Nat.eq_dec (nd_shape x) (nd_shape a)); [|discriminate].
      destruct (list_eq_dec Nat.eq_dec (nd_shape y) (nd_shape a)); [congruence|discriminate].
    - intros H x Hx. destruct (list_eq_dec Nat.eq_dec (nd_shape x) (nd_shape a)) as [_|n]; [reflexivity|].
      exfalso. apply n. apply H; [exact Hx|now left]. }
  split.
  - intros H. apply E in H. unfold stack. rewrite H. eexists. split; [reflexivity|]. split; [reflexivity|].
    intros k i b Hb. cbn [nd_entry]. f_equal. now apply nth_error_nth.
  - intros H. unfold stack. destruct (forallb _ _) eqn:F; [|reflexivity]. exfalso. apply H. now apply E.
Qed.
