(** The real numbers of the standard library as a mathcomp field, so that
    mathcomp's matrices can be used over them. *)

From Coq Require Import Reals ClassicalEpsilon Lra.
From mathcomp Require Import all_ssreflect all_algebra.

Set Implicit Arguments.
Unset Strict Implicit.
Unset Printing Implicit Defensive.

Definition eqr (x y : R) : bool := if Req_EM_T x y then true else false.
Lemma eqrP : Equality.axiom eqr.
Proof. by move=> x y; rewrite /eqr; case: Req_EM_T => H; constructor. Qed.
Definition R_eqMixin := EqMixin eqrP.
Canonical R_eqType := EqType R R_eqMixin.

Definition findr (P : pred R) (n : nat) : option R :=
  match excluded_middle_informative (exists x, P x) with
  | left H => Some (proj1_sig (constructive_indefinite_description _ H))
  | right _ => None
  end.
Lemma findr_some P n x : findr P n = Some x -> P x.
Proof. rewrite /findr; case: excluded_middle_informative => // H [<-]. exact: (proj2_sig (constructive_indefinite_description _ H)). Qed.
Lemma findr_ex (P : pred R) : (exists x, P x) -> exists n, findr P n.
Proof. move=> H; exists 0; rewrite /findr; by case: excluded_middle_informative. Qed.
Lemma findr_ext (P Q : pred R) : P =1 Q -> findr P =1 findr Q.
Proof.
  move=> E n. have ->: P = Q by apply: FunctionalExtensionality.functional_extensionality. done.
Qed.
Definition R_choiceMixin : Choice.mixin_of R := Choice.Mixin findr_some findr_ex findr_ext.
Canonical R_choiceType := ChoiceType R R_choiceMixin.

Lemma RaddA : associative Rplus. Proof. by move=> *; rewrite Rplus_assoc. Qed.
Lemma RaddC : commutative Rplus. Proof. exact: Rplus_comm. Qed.
Lemma Radd0 : left_id R0 Rplus. Proof. exact: Rplus_0_l. Qed.
Lemma RaddN : left_inverse R0 Ropp Rplus. Proof. exact: Rplus_opp_l. Qed.
Definition R_zmodMixin := ZmodMixin RaddA RaddC Radd0 RaddN.
Canonical R_zmodType := ZmodType R R_zmodMixin.

Lemma RmulA : associative Rmult. Proof. by move=> *; rewrite Rmult_assoc. Qed.
Lemma RmulC : commutative Rmult. Proof. exact: Rmult_comm. Qed.
Lemma Rmul1 : left_id R1 Rmult. Proof. exact: Rmult_1_l. Qed.
Lemma RmulD : left_distributive Rmult Rplus. Proof. exact: Rmult_plus_distr_r. Qed.
Lemma R10 : is_true (R1 != R0 :> R). Proof. by apply/eqP; exact: R1_neq_R0. Qed.
Definition R_ringMixin := ComRingMixin RmulA RmulC Rmul1 RmulD R10.
Canonical R_ringType := RingType R R_ringMixin.
Canonical R_comRingType := ComRingType R RmulC.

Definition invr (x : R) : R := if x != R0 then Rinv x else x.
Lemma invr_left x : x != R0 -> Rmult (invr x) x = R1.
Proof. by move=> H; rewrite /invr H; apply: Rinv_l; apply/eqP. Qed.
Lemma RmulV : {in predC1 (R0 : R), left_inverse R1 invr Rmult}.
Proof. move=> x; rewrite inE => H. exact: invr_left. Qed.
Lemma RmulVr : {in predC1 (R0 : R), right_inverse R1 invr Rmult}.
Proof. move=> x; rewrite inE => H. by rewrite RmulC invr_left. Qed.
Lemma RunitP (x y : R) : Rmult y x = R1 /\ Rmult x y = R1 -> predC1 (R0 : R) x.
Proof. move=> [H _]. apply/eqP => E. move: H. rewrite E Rmult_0_r. move/esym. exact: R1_neq_R0. Qed.
Lemma Rinv_out : {in [predC predC1 (R0 : R)], invr =1 id}.
Proof. move=> x; rewrite !inE negbK => /eqP ->. by rewrite /invr eqxx. Qed.
Definition R_unitRingMixin := UnitRingMixin RmulV RmulVr RunitP Rinv_out.
Canonical R_unitRing := UnitRingType R R_unitRingMixin.
Canonical R_comUnitRing := [comUnitRingType of R].
Lemma R_integral (x y : R) : Rmult x y = R0 -> (x == R0) || (y == R0).
Proof. move/Rmult_integral => [->|->]; rewrite eqxx //. by rewrite orbT. Qed.
Canonical R_idomain := IdomainType R R_integral.
Lemma R_field : GRing.Field.mixin_of R_unitRing. Proof. by []. Qed.
Canonical R_fieldType := FieldType R R_field.

(** Reals notations and mathcomp's agree *)
Import GRing.Theory.
Local Open Scope ring_scope.
Lemma RzeroE : (0 : R) = R0. Proof. by []. Qed.
Lemma RoneE : (1 : R) = R1. Proof. by []. Qed.
Lemma RplusE (x y : R) : x + y = Rplus x y. Proof. by []. Qed.
Lemma RmultE (x y : R) : x * y = Rmult x y. Proof. by []. Qed.
Lemma RoppE (x : R) : - x = Ropp x. Proof. by []. Qed.
Lemma RminusE (x y : R) : x - y = Rminus x y. Proof. by []. Qed.
Lemma RinvE (x : R) : x^-1 = Rinv x.
Proof.
  rewrite /GRing.inv /= /invr. case: eqP => //= ->. by rewrite Rinv_0.
Qed.
Lemma RdivE (x y : R) : x / y = Rdiv x y. Proof. by rewrite RinvE. Qed.
Lemma RnatE (n : nat) : n%:R = INR n :> R.
Proof.
  elim: n => [//|n IH]. rewrite -addn1 natrD IH addn1 S_INR. by [].
Qed.
Lemma RexpE (x : R) n : x ^+ n = pow x n.
Proof. elim: n => [//|n IH]. by rewrite exprS IH. Qed.
Lemma Runit (x : R) : (x \is a GRing.unit) = (x != 0). Proof. exact: unitfE. Qed.
