(** Concrete streams of data for C102: a block of observations, repeated. *)

From Coq Require Import Reals ZArith Lra List.
From Coquelicot Require Import Coquelicot.
From mathcomp Require Import all_ssreflect all_algebra.
From Verif Require Import Model.Num Model.Py Model.Dists Model.NdArray.
From Verif Require Import Analysis.RField Spec.Matrices Spec.Arrays Spec.VectorLimits Analysis.Posdef
  Proofs.Arrays Proofs.LinReg Proofs.MvNormal.
Delimit Scope R_scope with Re.

Set Implicit Arguments.
Unset Strict Implicit.
Unset Printing Implicit Defensive.
Local Open Scope ring_scope.
Import GRing.Theory.

Definition copies T (block : list T) (N : nat) : list T := List.concat (List.repeat block N.+1).

Lemma copies_length T (b : list T) N : length (copies b N) = (N.+1 * length b)%N.
Proof.
  rewrite /copies. elim: N => [|N IH]; first by rewrite /= app_length /= plusE addn0 mul1n.
  rewrite -[List.repeat b N.+2]/(b :: List.repeat b N.+1)%list -[List.concat _]/(b ++ List.concat (List.repeat b N.+1))%list.
  by rewrite app_length IH plusE [in RHS]mulSn.
Qed.

Lemma copies_unlimited T (b : list T) : b <> nil -> unlimited (copies b).
Proof.
  move=> Hb. have L : (0 < length b)%N by case: b Hb.
  split.
  - move=> N E. have := copies_length b N. rewrite E /= => /esym/eqP. rewrite muln_eq0 /=. by case: (length b) L.
  - apply: (is_lim_seq_ext (fun N => (INR N.+1 * INR (length b))%Re)).
    + move=> N. rewrite copies_length mult_INR //.
    + apply: (is_lim_seq_le_p_loc INR); last exact: is_lim_seq_INR.
      exists 0%nat => N _. have H1 : (1 <= INR (length b))%Re by apply: (le_INR 1); exact/leP.
      have H2 := pos_INR N. rewrite S_INR. nra.
Qed.

Lemma sum_app T (f : T -> R) a b : fold_right (fun x s => Rplus (f x) s) 0%Re (a ++ b)%list
  = (fold_right (fun x s => Rplus (f x) s) 0%Re a + fold_right (fun x s => Rplus (f x) s) 0%Re b)%Re.
Proof. elim: a => [|x a IH] /=; first by rewrite Rplus_0_l. by rewrite IH Rplus_assoc. Qed.

Lemma copies_average T (b : list T) f a : b <> nil -> average f b = a -> average_tends (copies b) f a.
Proof.
  move=> Hb E. apply: (is_lim_seq_ext (fun _ => a)); last exact: is_lim_seq_const.
  move=> N. rewrite -E /average copies_length mult_INR.
  have L : (0 < INR (length b))%Re by apply: lt_0_INR; case: b Hb {E} => //= *; exact: PeanoNat.Nat.lt_0_succ.
  have -> : fold_right (fun x s => Rplus (f x) s) 0%Re (copies b N) = (INR N.+1 * fold_right (fun x s => Rplus (f x) s) 0%Re b)%Re.
  { rewrite /copies. elim: N => [|N IH]; first by rewrite /= app_nil_r; ring.
    rewrite -[List.repeat b N.+2]/(b :: List.repeat b N.+1)%list -[List.concat _]/(b ++ List.concat (List.repeat b N.+1))%list.
    rewrite sum_app IH [in RHS]S_INR. ring. }
  have H : (0 < INR N.+1)%Re by apply: lt_0_INR; exact: PeanoNat.Nat.lt_0_succ.
  field. lra.
Qed.

Definition vec2 (a b : R) : 'cV[R]_2 := \col_(i < 2) if i == 0%N :> nat then a else b.

Lemma ex_cov_entry i j : ex_cov i j = (if i == j :> nat then 2 else 1)%Re.
Proof. rewrite /ex_cov !mxE -[i == j]/(i == j :> nat). case: (_ == _); rewrite /GRing.natmul /=; toR; ring. Qed.

(** mean (1, 3), covariance [ex_cov] *)
Definition ex_points : list 'cV[R]_2 :=
  [:: vec2 3 4; vec2 (-1) 2; vec2 2 5; vec2 0 1; vec2 2 2; vec2 0 4]%Re.

Lemma ex_points_mean i : average_tends (copies ex_points) (fun x => x i 0) (vec2 1%Re 3%Re i 0).
Proof.
  apply: copies_average => //. case: i => [[|[|//]] p]; rewrite /average /ex_points /= !mxE /=; field.
Qed.
Lemma ex_points_cov i j : average_tends (copies ex_points)
  (fun x => ((x i 0%R - vec2 1%Re 3%Re i 0%R) * (x j 0%R - vec2 1%Re 3%Re j 0%R))%Re) (ex_cov i j).
Proof.
  apply: copies_average => //. rewrite ex_cov_entry /average /ex_points.
  case: i => [[|[|//]] p]; case: j => [[|[|//]] q]; rewrite /= !mxE /=; field.
Qed.

(** coefficients (1, 2), residuals -1 and 1 *)
Definition ex_obs : list (obs 2) := [:: (vec2 1 1, 4); (vec2 1 1, 2); (vec2 1 0, 2); (vec2 1 0, 0); (vec2 0 1, 3); (vec2 0 1, 1)]%Re.
Definition ex_gram : 'M[R]_2 := (/ 3)%Re *: ex_cov.
Lemma ex_gram_posdef : posdef ex_gram.
Proof. apply: posdef_scale; [lra | exact: posdef_1J]. Qed.
Lemma ex_obs_gram i j : average_tends (copies ex_obs) (fun o => (o.1 i 0%R * o.1 j 0%R)%Re) (ex_gram i j).
Proof.
  apply: copies_average => //. rewrite /ex_gram [X in _ = X]mxE ex_cov_entry /average /ex_obs.
  case: i => [[|[|//]] p]; case: j => [[|[|//]] q]; rewrite /= !mxE /=; toR; field.
Qed.
Lemma ex_residual a b y : residual (vec2 1%Re 2%Re) (vec2 a b, y) = (y - (a + 2 * b))%Re.
Proof. rewrite /residual /= mxE !big_ord_recl big_ord0 !mxE /=. toR. ring. Qed.
Lemma ex_obs_orthogonal i : average_tends (copies ex_obs) (fun o => (o.1 i 0%R * residual (vec2 1%Re 2%Re) o)%Re) 0%Re.
Proof.
  apply: copies_average => //. rewrite /average /ex_obs [fold_right _ _ _]/= !ex_residual /=.
  case: i => [[|[|//]] p]; rewrite !mxE /=; field.
Qed.
Lemma ex_obs_variance : average_tends (copies ex_obs) (fun o => (residual (vec2 1%Re 2%Re) o ^ 2)%Re) 1%Re.
Proof. apply: copies_average => //. rewrite /average /ex_obs [fold_right _ _ _]/= !ex_residual /=. field. Qed.

Lemma copies_sample N : exists s, holds_sample Flat (copies ex_points N) s.
Proof.
  exists (scalar (INR (length (copies ex_points N))), of_flat ((/ INR (length (copies ex_points N)))%Re *: \sum_(x <- copies ex_points N) x)).
  split; first by split. eexists. split; first exact: of_flat_holds.
  rewrite scalerA. have -> : INR (length (copies ex_points N)) * (/ INR (length (copies ex_points N)))%Re = 1; last by rewrite scale1r.
  apply: Rinv_r. have := proj1 (@copies_unlimited _ ex_points ltac:(by [])) N. case: (copies _ _) => [//|x l _].
  apply: Rgt_not_eq. apply: lt_0_INR. exact: PeanoNat.Nat.lt_0_succ.
Qed.
