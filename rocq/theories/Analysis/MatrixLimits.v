(** Limits of matrices: sums, products, determinants, inverses. *)

From Coq Require Import Reals Lra List.
From Coquelicot Require Import Coquelicot.
From mathcomp Require Import all_ssreflect all_algebra.
From Verif Require Import Analysis.RField Spec.Matrices Analysis.Posdef Spec.VectorLimits.
Delimit Scope R_scope with Re.

Set Implicit Arguments.
Unset Strict Implicit.
Unset Printing Implicit Defensive.
Import GRing.Theory.
Local Open Scope ring_scope.

Lemma lim_add (u v : nat -> R) (a b : R) : is_lim_seq u a -> is_lim_seq v b -> is_lim_seq (fun N => u N + v N) (a + b).
Proof. exact: is_lim_seq_plus'. Qed.
Lemma lim_mul (u v : nat -> R) (a b : R) : is_lim_seq u a -> is_lim_seq v b -> is_lim_seq (fun N => u N * v N) (a * b).
Proof. exact: is_lim_seq_mult'. Qed.
Lemma lim_opp (u : nat -> R) (a : R) : is_lim_seq u a -> is_lim_seq (fun N => - u N) (- a).
Proof. move=> H. exact: (proj1 (is_lim_seq_opp u a) H). Qed.

Lemma lim_sum I (r : seq I) (P : pred I) (F : nat -> I -> R) (L : I -> R) :
  (forall i, is_lim_seq (fun N => F N i) (L i)) -> is_lim_seq (fun N => \sum_(i <- r | P i) F N i) (\sum_(i <- r | P i) L i).
Proof.
  move=> H. elim: r => [|x r IH].
  - rewrite big_nil. apply: is_lim_seq_ext; last exact: is_lim_seq_const. by move=> N; rewrite big_nil.
  - rewrite big_cons. case E: (P x).
    + apply: is_lim_seq_ext; last exact: (lim_add (H x) IH). by move=> N; rewrite big_cons E.
    + apply: is_lim_seq_ext IH. by move=> N; rewrite big_cons E.
Qed.
Lemma lim_prod I (r : seq I) (P : pred I) (F : nat -> I -> R) (L : I -> R) :
  (forall i, is_lim_seq (fun N => F N i) (L i)) -> is_lim_seq (fun N => \prod_(i <- r | P i) F N i) (\prod_(i <- r | P i) L i).
Proof.
  move=> H. elim: r => [|x r IH].
  - rewrite big_nil. apply: is_lim_seq_ext; last exact: is_lim_seq_const. by move=> N; rewrite big_nil.
  - rewrite big_cons. case E: (P x).
    + apply: is_lim_seq_ext; last exact: (lim_mul (H x) IH). by move=> N; rewrite big_cons E.
    + apply: is_lim_seq_ext IH. by move=> N; rewrite big_cons E.
Qed.

Lemma mx_lim_const m n (A : 'M[R]_(m, n)) : mx_lim (fun _ => A) A.
Proof. move=> i j. exact: is_lim_seq_const. Qed.
Lemma mx_lim_ext m n (A B : nat -> 'M[R]_(m, n)) L : (forall N, A N = B N) -> mx_lim A L -> mx_lim B L.
Proof. move=> E H i j. apply: is_lim_seq_ext (H i j). by move=> N; rewrite E. Qed.
Lemma mx_lim_add m n (A B : nat -> 'M[R]_(m, n)) K L : mx_lim A K -> mx_lim B L -> mx_lim (fun N => A N + B N) (K + L).
Proof. move=> HA HB i j. rewrite mxE. apply: is_lim_seq_ext; last exact: (lim_add (HA i j) (HB i j)). by move=> N; rewrite mxE. Qed.
Lemma mx_lim_opp m n (A : nat -> 'M[R]_(m, n)) K : mx_lim A K -> mx_lim (fun N => - A N) (- K).
Proof. move=> HA i j. rewrite mxE. apply: is_lim_seq_ext; last exact: (lim_opp (HA i j)). by move=> N; rewrite mxE. Qed.
Lemma mx_lim_scale m n (c : nat -> R) (A : nat -> 'M[R]_(m, n)) (c0 : R) K : is_lim_seq c c0 -> mx_lim A K -> mx_lim (fun N => c N *: A N) (c0 *: K).
Proof. move=> Hc HA i j. rewrite mxE. apply: is_lim_seq_ext; last exact: (lim_mul Hc (HA i j)). by move=> N; rewrite mxE. Qed.
Lemma mx_lim_mul m n p (A : nat -> 'M[R]_(m, n)) (B : nat -> 'M[R]_(n, p)) K L :
  mx_lim A K -> mx_lim B L -> mx_lim (fun N => A N *m B N) (K *m L).
Proof.
  move=> HA HB i j. rewrite mxE. apply: is_lim_seq_ext; first by move=> N; rewrite mxE.
  apply: lim_sum => k. exact: lim_mul.
Qed.
Lemma mx_lim_tr m n (A : nat -> 'M[R]_(m, n)) K : mx_lim A K -> mx_lim (fun N => (A N)^T) K^T.
Proof. move=> HA i j. rewrite mxE. apply: is_lim_seq_ext (HA j i). by move=> N; rewrite mxE. Qed.

Lemma det_lim n (A : nat -> 'M[R]_n) K : mx_lim A K -> is_lim_seq (fun N => \det (A N)) (\det K).
Proof.
  move=> HA. apply: lim_sum => s. apply: lim_mul; first exact: is_lim_seq_const. apply: lim_prod => i. exact: HA.
Qed.

Lemma adj_lim n (A : nat -> 'M[R]_n) K : mx_lim A K -> mx_lim (fun N => \adj (A N)) (\adj K).
Proof.
  move=> HA i j. rewrite mxE. apply: is_lim_seq_ext; first by move=> N; rewrite mxE.
  apply: lim_mul; first exact: is_lim_seq_const. apply: (@det_lim _ (fun N => row' j (col' i (A N)))) => a b.
  rewrite !mxE. apply: is_lim_seq_ext (HA _ _). by move=> N; rewrite !mxE.
Qed.

Lemma inv_lim n (A : nat -> 'M[R]_n) K : (forall N, A N \in unitmx) -> K \in unitmx -> mx_lim A K ->
  mx_lim (fun N => invmx (A N)) (invmx K).
Proof.
  move=> UA UK HA. rewrite /invmx UK. apply: (@mx_lim_ext _ _ (fun N => (\det (A N))^-1 *: \adj (A N))); first by move=> N; rewrite UA.
  apply: mx_lim_scale; last exact: adj_lim.
  rewrite RinvE. apply: is_lim_seq_ext; first by move=> N; rewrite RinvE.
  have N0 : \det K <> 0%Re by move: UK; rewrite unitmxE Runit => /eqP.
  apply: (is_lim_seq_inv _ _ (det_lim HA)). by move=> [].
Qed.

Lemma quad_lim n (A : nat -> 'M[R]_n) (v : nat -> 'cV[R]_n) K w : mx_lim A K -> mx_lim v w ->
  is_lim_seq (fun N => quad (A N) (v N)) (quad K w).
Proof. move=> HA Hv. apply: (mx_lim_mul (mx_lim_mul (mx_lim_tr Hv) HA) Hv). Qed.
