(** Calls with Python numbers: soundness of the real-number model and exact conditions for raising. *)

From Coq Require Import ZArith Bool List Lia Reals Lra Psatz.
From Verif Require Import Model.Num Model.Py Model.Dists Model.Models Model.Table Model.PyNum Spec.Defined Proofs.Param.
Import ListNotations.
Open Scope R_scope.

Definition sound_rel (a : res R) (x : R) : Prop := forall y, a = Ok y -> y = x.

Lemma py_sound arctan2 : NumRel NumPy NumR (Ufuncs_py arctan2) (Ufuncs_R arctan2) sound_rel.
Proof.
  unfold sound_rel.
  constructor; simpl; unfold py2, py1; intros;
    repeat match goal with a : res R |- _ => destruct a; simpl in * end; try discriminate;
    repeat match goal with H : forall y, Ok ?r = Ok y -> y = ?x |- _ => specialize (H _ eq_refl); subst x end.
  all: unfold py_div, py_sqrt, py_rsqrt, py_ln in *;
    repeat match goal with H : context [if ?b then _ else _] |- _ => destruct b end; congruence.
Qed.

(** If the call returns, it returns what the real-number model returns. *)
Lemma run_py_sound arctan2 f args out :
  run_py arctan2 f args = Ok out -> run (Ufuncs_R arctan2) f args = Ok out.
Proof.
  intros H. assert (F : Forall2 sound_rel (map Ok args) args).
  { clear. induction args; simpl; constructor; auto. intros y Hy. congruence. }
  pose proof (run_rel _ _ _ _ _ (py_sound arctan2) f _ _ F) as G. unfold run_py in H.
  destruct (run (Ufuncs_py arctan2) f (map Ok args)) as [l|e]; [|discriminate].
  destruct (run (Ufuncs_R arctan2) f args) as [l'|e']; [|contradiction]. simpl in *. f_equal.
  revert out H. induction G as [|a x l l' Hx _ IH]; simpl; intros out H. congruence.
  destruct a; [|discriminate]. simpl in H. destruct (sequence l); [|discriminate]. simpl in H.
  injection H as <-. f_equal. symmetry. now apply Hx. now apply IH.
Qed.

Lemma exists_Ok {A} (x : A) : (exists o, Ok x = Ok o) <-> True.
Proof. split; eauto. Qed.
Lemma not_Raise {A} (e : exn) : (exists o : A, Raise e = Ok o) <-> False.
Proof. split; intros H. destruct H; discriminate. contradiction. Qed.

Ltac fld := field; repeat split; auto; try lra; try nra.

Lemma sq_ne x : x <> 0 -> x ^ 2 <> 0.
Proof. intros; simpl; nra. Qed.

Lemma inv_neg_false y : 1 / y < 0 -> 0 < y -> False.
Proof. intros H Hy. assert (0 < / y) by now apply Rinv_0_lt_compat. unfold Rdiv in H. lra. Qed.
Lemma inv_not_neg y : ~ 1 / y < 0 -> y <> 0 -> 0 < y.
Proof.
  intros H Hy. destruct (Rlt_or_le 0 y); auto. exfalso. apply H. assert (/ y < 0) by (apply Rinv_lt_0_compat; lra).
  unfold Rdiv. lra.
Qed.
Lemma one_div_ne y : y <> 0 -> 1 / y = 0 -> False.
Proof. intros H E. assert (y * (1 / y) = 1) by (field; auto). rewrite E in H0. lra. Qed.
Lemma div_one_div x y : y <> 0 -> x / (1 / y) = x * y.
Proof. intros. field. auto. Qed.

Lemma run_py_defined arctan2 f args : length args = arity f ->
  ((exists out, run_py arctan2 f args = Ok out) <-> defined f args).
Proof.
  intros H. destruct f; simpl in H;
  repeat (destruct args as [|? args]; simpl in H; try discriminate H); clear H;
  try (unfold run_py; simpl; destruct (one_start); simpl; split; [auto|intros _; eexists; reflexivity]);
  try (unfold run_py; simpl; split; [auto|intros _; eexists; reflexivity]);
  unfold run_py; simpl; unfold py_div, py_sqrt, py_rsqrt, py_ln.
  all: repeat (match goal with |- context [if ?b then _ else _] => destruct b end; simpl);
    rewrite ?exists_Ok, ?not_Raise; split; intros; auto; try lra; try contradiction.
  - destruct H as [H _]. nra.
  - destruct H as (_ & _ & H). now apply inv_neg_false in H.
  - split; [intros ->; nra|]. split; auto. now apply inv_not_neg.
  - destruct H as [H _]. nra.
  - now apply (one_div_ne r1).
  - destruct H as (_ & _ & H). rewrite div_one_div in e by auto. lra.
  - destruct H as (_ & _ & H). rewrite div_one_div in * by auto. now apply inv_neg_false in H.
  - rewrite div_one_div in * by auto. split; [intros ->; nra|]. split; auto. now apply inv_not_neg.
  - destruct H as [H H']. replace (r0 * r1 / 2 / (r0 / 2)) with r1 in * by (field; auto). lra.
  - assert (r0 <> 0) by (intros ->; apply n0; lra). split; auto.
    replace (r0 * r1 / 2 / (r0 / 2)) with r1 in * by (field; auto). lra.
  - destruct H as (H1 & H2 & _). apply Rmult_integral in e. tauto.
  - repeat split; try (intros ->; lra). lra.
  - destruct H as (H1 & H2 & _). apply Rmult_integral in e. tauto.
  - repeat split; try (intros ->; lra). lra.
Qed.

(** C29: an empty batch raises. *)
Lemma normal_no_data arctan2 x x2 mu a b nu :
  run_py arctan2 F_normal_nig [x; x2; 0; mu; a; b; nu] = Raise ZeroDivisionError /\
  run_py arctan2 F_normal_ng [x; x2; 0; mu; nu; a; b] = Raise ZeroDivisionError.
Proof.
  unfold run_py. simpl. unfold py_div. destruct (Req_EM_T 0 0); [|lra]. simpl. auto.
Qed.
