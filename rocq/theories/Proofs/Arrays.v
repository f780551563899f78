(** Array operations compute the matrix operations. *)

From Coq Require Import Reals ZArith Lra List.
From mathcomp Require Import all_ssreflect all_algebra.
From Verif Require Import Model.Num Model.Py Model.NdArray Model.MatrixModel.
From Verif Require Import Analysis.RField Spec.Matrices Analysis.Posdef Spec.Arrays.
Delimit Scope R_scope with Re.

Set Implicit Arguments.
Unset Strict Implicit.
Unset Printing Implicit Defensive.
Import GRing.Theory.
Local Open Scope ring_scope.

Definition comp_mx m n (r : res (nd R)) (M : 'M[R]_(m, n)) := exists a, r = Ok a /\ holds_mx a M.
Definition comp_vec n l (r : res (nd R)) (v : 'cV[R]_n) := exists a, r = Ok a /\ holds_vec l a v.
Definition comp_row n l (r : res (nd R)) (v : 'rV[R]_n) := exists a, r = Ok a /\ holds_row l a v.
Definition comp_num (r : res (nd R)) (x : R) := exists a, r = Ok a /\ holds_num a x.

Notation nadd' := (@nadd (res (nd R)) (NumNd NumR)).
Notation nsub' := (@nsub (res (nd R)) (NumNd NumR)).
Notation nmul' := (@nmul (res (nd R)) (NumNd NumR)).
Notation ndiv' := (@ndiv (res (nd R)) (NumNd NumR)).
Notation matmul' := (@matmul R NumR).
Notation transpose' := (@transpose R).

Lemma nsum_big n f : @nsum R NumR n f = \sum_(t < n) f (nat_of_ord t).
Proof.
  rewrite /nsum.
  have G : forall s z, fold_left Rplus (List.map f (List.seq s n)) z
                       = (z + \sum_(t < n) f (s + nat_of_ord t)%N)%Re.
  { elim: n => [|n IH] s z /=.
    - rewrite big_ord0. rewrite /GRing.zero /=. ring.
    - rewrite IH big_ord_recl /= addn0 RplusE Rplus_assoc. do 2 f_equal.
      apply: eq_bigr => i _. by rewrite /bump /= addSnnS. }
  rewrite [LHS]G. rewrite /= Rplus_0_l. apply: eq_bigr => i _. by rewrite add0n.
Qed.

Lemma ord_lt n (i : 'I_n) : (if Nat.eqb n 1 then 0%N else nat_of_ord i) = nat_of_ord i.
Proof. case: (Nat.eqb_spec n 1) => // E. move: (ltn_ord i). rewrite {2}E. by case: (nat_of_ord i). Qed.

(** ** elementwise *)
Section Elementwise.
Variable f : R -> R -> R.
Notation f2 := (lift2 f).

Lemma bc_same2 m n : broadcast_shapes [:: m; n] [:: m; n] = Some [:: m; n].
Proof. by rewrite /broadcast_shapes /= !Nat.eqb_refl. Qed.
Lemma bc_same1 m : broadcast_shapes [:: m] [:: m] = Some [:: m].
Proof. by rewrite /broadcast_shapes /= !Nat.eqb_refl. Qed.
Lemma bc_sc s : broadcast_shapes [::] s = Some s.
Proof. by rewrite /broadcast_shapes /= List.rev_involutive. Qed.
Lemma bc_cs s : broadcast_shapes s [::] = Some s.
Proof.
  rewrite /broadcast_shapes /=. have ->: bc (List.rev s) [::] = Some (List.rev s) by case: (List.rev s).
  by rewrite /= List.rev_involutive.
Qed.
Lemma bc_11 m n : broadcast_shapes [:: 1%N; 1%N] [:: m; n] = Some [:: m; n].
Proof. rewrite /broadcast_shapes /=. case: m => [|[|m]]; case: n => [|[|n]] //=. Qed.
Lemma bc_11' m n : broadcast_shapes [:: m; n] [:: 1%N; 1%N] = Some [:: m; n].
Proof. rewrite /broadcast_shapes /=. case: m => [|[|m]]; case: n => [|[|n]] //=. Qed.
Lemma bc_1c n : broadcast_shapes [:: n] [:: 1%N; 1%N] = Some [:: 1%N; n].
Proof. rewrite /broadcast_shapes /=. case: n => [|[|n]] //=. Qed.
Lemma bc_row m n : broadcast_shapes [:: m; n] [:: n] = Some [:: m; n].
Proof. by rewrite /broadcast_shapes /= !Nat.eqb_refl. Qed.

Lemma at_mx m n a (M : 'M[R]_(m, n)) i j : holds_mx a M ->
  at_index [:: nat_of_ord i; nat_of_ord j] a = M i j.
Proof. move=> [S E]. by rewrite /at_index S /= !ord_lt E. Qed.
Lemma at_num_mx (a : nd R) x (i j : nat) : holds_num a x -> at_index [:: i; j] a = x.
Proof. by case=> [[S E]|[S E]]; rewrite /at_index S /=. Qed.
Lemma at_flat n a (v : 'cV[R]_n) i : holds_vec Flat a v -> at_index [:: nat_of_ord i] a = v i 0.
Proof. move=> [S E]. by rewrite /at_index S /= !ord_lt E. Qed.
Lemma at_flat_mx n a (v : 'cV[R]_n) (k : nat) i : holds_vec Flat a v -> at_index [:: k; nat_of_ord i] a = v i 0.
Proof. move=> [S E]. by rewrite /at_index S /= !ord_lt E. Qed.

Lemma comp_mx_mx m n r s (M N : 'M[R]_(m, n)) : comp_mx r M -> comp_mx s N ->
  comp_mx (f2 r s) (\matrix_(i, j) f (M i j) (N i j)).
Proof.
  move=> [a [-> Ha]] [b [-> Hb]]. rewrite /= /map2 (proj1 Ha) (proj1 Hb) bc_same2.
  eexists; split; first reflexivity. split=> // i j. by rewrite /= (at_mx i j Ha) (at_mx i j Hb) mxE.
Qed.
Lemma comp_num_mx m n r s x (N : 'M[R]_(m, n)) : comp_num r x -> comp_mx s N ->
  comp_mx (f2 r s) (\matrix_(i, j) f x (N i j)).
Proof.
  move=> [a [-> Ha]] [b [-> Hb]]. rewrite /= /map2 (proj1 Hb).
  have ->: broadcast_shapes (nd_shape a) [:: m; n] = Some [:: m; n].
  { by case: Ha => [[-> _]|[-> _]]; rewrite ?bc_sc ?bc_11. }
  eexists; split; first reflexivity. split=> // i j. by rewrite /= (at_num_mx _ _ Ha) (at_mx i j Hb) mxE.
Qed.
Lemma comp_mx_num m n r s x (N : 'M[R]_(m, n)) : comp_mx r N -> comp_num s x ->
  comp_mx (f2 r s) (\matrix_(i, j) f (N i j) x).
Proof.
  move=> [b [-> Hb]] [a [-> Ha]]. rewrite /= /map2 (proj1 Hb).
  have ->: broadcast_shapes [:: m; n] (nd_shape a) = Some [:: m; n].
  { by case: Ha => [[-> _]|[-> _]]; rewrite ?bc_cs ?bc_11'. }
  eexists; split; first reflexivity. split=> // i j. by rewrite /= (at_num_mx _ _ Ha) (at_mx i j Hb) mxE.
Qed.
Lemma comp_num_num r s x y : comp_num r x -> comp_num s y -> comp_num (f2 r s) (f x y).
Proof.
  move=> [a [-> Ha]] [b [-> Hb]].
  rewrite /= /map2. case: (Ha) (Hb) => [[Sa Ea]|[Sa Ea]] [[Sb Eb]|[Sb Eb]].
  - rewrite Sa Sb. eexists; split; first reflexivity. left. split=> //=. by rewrite /at_index Sa Sb /= Ea Eb.
  - rewrite Sa Sb. eexists; split; first reflexivity. right. split=> //=.
    by rewrite (at_num_mx _ _ Ha) (at_num_mx _ _ Hb).
  - rewrite Sa Sb. eexists; split; first reflexivity. right. split=> //=.
    by rewrite (at_num_mx _ _ Ha) (at_num_mx _ _ Hb).
  - rewrite Sa Sb. eexists; split; first reflexivity. right. split=> //=.
    by rewrite (at_num_mx _ _ Ha) (at_num_mx _ _ Hb).
Qed.
Lemma comp_vec_vec n l r s (u v : 'cV[R]_n) : comp_vec l r u -> comp_vec l s v ->
  comp_vec l (f2 r s) (\matrix_(i, j) f (u i 0) (v i 0)).
Proof.
  case: l; last first.
  { move=> H1 H2. case: (comp_mx_mx H1 H2) => c [-> [S E]]. exists c. split=> //. split=> // i j.
    by rewrite E !mxE ord1. }
  move=> [a [-> Ha]] [b [-> Hb]]. rewrite /= /map2 (proj1 Ha) (proj1 Hb) bc_same1.
  eexists; split; first reflexivity. split=> // i. by rewrite /= (at_flat i Ha) (at_flat i Hb) mxE.
Qed.
(** rows of a matrix against a flat vector *)
Lemma comp_mx_flat m n r s (M : 'M[R]_(m, n)) (v : 'cV[R]_n) : comp_mx r M -> comp_vec Flat s v ->
  comp_mx (f2 r s) (\matrix_(i, j) f (M i j) (v j 0)).
Proof.
  move=> [a [-> Ha]] [b [-> Hb]]. rewrite /= /map2 (proj1 Ha) (proj1 Hb) bc_row.
  eexists; split; first reflexivity. split=> // i j. by rewrite /= (at_mx i j Ha) (at_flat_mx i j Hb) mxE.
Qed.
End Elementwise.

(** scalars of shape [] *)
Definition comp_sc (r : res (nd R)) (x : R) := exists a, r = Ok a /\ holds_sc a x.
Lemma comp_sc_num r x : comp_sc r x -> comp_num r x.
Proof. move=> [a [-> H]]. exists a. split=> //. by left. Qed.
Lemma at_sc a x i : holds_sc a x -> at_index i a = x.
Proof. by move=> [S E]; rewrite /at_index S /=. Qed.
Lemma comp_sc_vec f n l r s x (v : 'cV[R]_n) : comp_sc r x -> comp_vec l s v ->
  comp_vec l (lift2 f r s) (\matrix_(i, j) f x (v i 0)).
Proof.
  case: l => Hr Hs; last first.
  { case: (comp_num_mx f (comp_sc_num Hr) Hs) => c [-> [S E]]. exists c. split=> //. split=> // i j.
    by rewrite E !mxE ord1. }
  case: Hr => [a [-> Ha]]. case: Hs => [b [-> Hb]]. rewrite /= /map2 (proj1 Ha) (proj1 Hb) bc_sc.
  eexists; split; first reflexivity. split=> // i. by rewrite /= (at_sc _ Ha) (at_flat i Hb) mxE.
Qed.
Lemma comp_vec_sc f n l r s x (v : 'cV[R]_n) : comp_vec l r v -> comp_sc s x ->
  comp_vec l (lift2 f r s) (\matrix_(i, j) f (v i 0) x).
Proof.
  case: l => Hr Hs; last first.
  { case: (comp_mx_num f Hr (comp_sc_num Hs)) => c [-> [S E]]. exists c. split=> //. split=> // i j.
    by rewrite E !mxE ord1. }
  case: Hr => [a [-> Ha]]. case: Hs => [b [-> Hb]]. rewrite /= /map2 (proj1 Ha) (proj1 Hb) bc_cs.
  eexists; split; first reflexivity. split=> // i. by rewrite /= (at_sc _ Hb) (at_flat i Ha) mxE.
Qed.
Lemma comp_sc_sc f r s x y : comp_sc r x -> comp_sc s y -> comp_sc (lift2 f r s) (f x y).
Proof.
  move=> [a [-> Ha]] [b [-> Hb]]. rewrite /= /map2 (proj1 Ha) (proj1 Hb).
  eexists; split; first reflexivity. split=> //=. by rewrite (at_sc _ Ha) (at_sc _ Hb).
Qed.

(** ** the operators of the code *)
Lemma cm_ext m n r (M N : 'M[R]_(m, n)) : comp_mx r M -> M = N -> comp_mx r N. Proof. by move=> H <-. Qed.
Lemma cv_ext n l r (M N : 'cV[R]_n) : comp_vec l r M -> M = N -> comp_vec l r N. Proof. by move=> H <-. Qed.
Lemma cn_ext r x y : comp_num r x -> x = y -> comp_num r y. Proof. by move=> H <-. Qed.

Lemma cm_add m n r s (M N : 'M[R]_(m, n)) : comp_mx r M -> comp_mx s N -> comp_mx (nadd' r s) (M + N).
Proof. move=> H1 H2. apply: (cm_ext (comp_mx_mx Rplus H1 H2)). apply/matrixP => i j. by rewrite !mxE. Qed.
Lemma cm_sub m n r s (M N : 'M[R]_(m, n)) : comp_mx r M -> comp_mx s N -> comp_mx (nsub' r s) (M - N).
Proof. move=> H1 H2. apply: (cm_ext (comp_mx_mx Rminus H1 H2)). apply/matrixP => i j. by rewrite !mxE. Qed.
Lemma cm_scale m n r s x (M : 'M[R]_(m, n)) : comp_num r x -> comp_mx s M -> comp_mx (nmul' r s) (x *: M).
Proof. move=> H1 H2. apply: (cm_ext (comp_num_mx Rmult H1 H2)). apply/matrixP => i j. by rewrite !mxE. Qed.
Lemma cm_scaler m n r s x (M : 'M[R]_(m, n)) : comp_mx r M -> comp_num s x -> comp_mx (nmul' r s) (x *: M).
Proof.
  move=> H1 H2. apply: (cm_ext (comp_mx_num Rmult H1 H2)). apply/matrixP => i j. rewrite !mxE. exact: Rmult_comm.
Qed.
Lemma cm_div m n r s x (M : 'M[R]_(m, n)) : comp_mx r M -> comp_num s x -> comp_mx (ndiv' r s) ((/ x)%Re *: M).
Proof.
  move=> H1 H2. apply: (cm_ext (comp_mx_num Rdiv H1 H2)). apply/matrixP => i j. rewrite !mxE. exact: Rmult_comm.
Qed.
Lemma cv_add n l r s (M N : 'cV[R]_n) : comp_vec l r M -> comp_vec l s N -> comp_vec l (nadd' r s) (M + N).
Proof. move=> H1 H2. apply: (cv_ext (comp_vec_vec Rplus H1 H2)). apply/matrixP => i j. by rewrite !mxE ord1. Qed.
Lemma cv_sub n l r s (M N : 'cV[R]_n) : comp_vec l r M -> comp_vec l s N -> comp_vec l (nsub' r s) (M - N).
Proof. move=> H1 H2. apply: (cv_ext (comp_vec_vec Rminus H1 H2)). apply/matrixP => i j. by rewrite !mxE ord1. Qed.
Lemma cv_scale n l r s x (M : 'cV[R]_n) : comp_sc r x -> comp_vec l s M -> comp_vec l (nmul' r s) (x *: M).
Proof. move=> H1 H2. apply: (cv_ext (comp_sc_vec Rmult H1 H2)). apply/matrixP => i j. by rewrite !mxE ord1. Qed.
Lemma cv_scaler n l r s x (M : 'cV[R]_n) : comp_vec l r M -> comp_sc s x -> comp_vec l (nmul' r s) (x *: M).
Proof.
  move=> H1 H2. apply: (cv_ext (comp_vec_sc Rmult H1 H2)). apply/matrixP => i j. rewrite !mxE ord1. exact: Rmult_comm.
Qed.
Lemma cv_div n l r s x (M : 'cV[R]_n) : comp_vec l r M -> comp_sc s x -> comp_vec l (ndiv' r s) ((/ x)%Re *: M).
Proof.
  move=> H1 H2. apply: (cv_ext (comp_vec_sc Rdiv H1 H2)). apply/matrixP => i j. rewrite !mxE ord1. exact: Rmult_comm.
Qed.
Lemma cn_add r s x y : comp_num r x -> comp_num s y -> comp_num (nadd' r s) (x + y)%Re.
Proof. exact: (comp_num_num Rplus). Qed.
Lemma cn_sub r s x y : comp_num r x -> comp_num s y -> comp_num (nsub' r s) (x - y)%Re.
Proof. exact: (comp_num_num Rminus). Qed.
Lemma cn_mul r s x y : comp_num r x -> comp_num s y -> comp_num (nmul' r s) (x * y)%Re.
Proof. exact: (comp_num_num Rmult). Qed.
Lemma cn_div r s x y : comp_num r x -> comp_num s y -> comp_num (ndiv' r s) (x / y)%Re.
Proof. exact: (comp_num_num Rdiv). Qed.
Lemma cs_add r s x y : comp_sc r x -> comp_sc s y -> comp_sc (nadd' r s) (x + y)%Re.
Proof. exact: (comp_sc_sc Rplus). Qed.
Lemma cs_sub r s x y : comp_sc r x -> comp_sc s y -> comp_sc (nsub' r s) (x - y)%Re.
Proof. exact: (comp_sc_sc Rminus). Qed.
Lemma cs_mul r s x y : comp_sc r x -> comp_sc s y -> comp_sc (nmul' r s) (x * y)%Re.
Proof. exact: (comp_sc_sc Rmult). Qed.
Lemma cs_int n : comp_sc (int n) (INR n).
Proof. exists (scalar (INR n)). split; last by []. by rewrite /int /= INR_IZR_INZ. Qed.
Lemma cs_lit z : comp_sc (@nlit _ (NumNd NumR) z) (IZR z).
Proof. by exists (scalar (IZR z)). Qed.
Lemma cs_half : comp_sc (@nhalf _ (NumNd NumR)) (/ 2)%Re.
Proof. by exists (scalar (/ 2)%Re). Qed.

Lemma cm_tr m n r (M : 'M[R]_(m, n)) : comp_mx r M -> comp_mx (transpose' r) M^T.
Proof.
  move=> [a [-> [S E]]]. eexists; split; first reflexivity. rewrite /transpose_nd S /=. split=> //= i j.
  by rewrite E mxE.
Qed.
Lemma cv_tr n l r (v : 'cV[R]_n) : comp_vec l r v -> comp_row l (transpose' r) v^T.
Proof.
  case: l; last exact: cm_tr.
  move=> [a [-> [S E]]]. eexists; split; first reflexivity. rewrite /transpose_nd S /=. split=> //= i.
  by rewrite E mxE.
Qed.

Lemma cm_mul m k n r s (M : 'M[R]_(m, k)) (N : 'M[R]_(k, n)) :
  comp_mx r M -> comp_mx s N -> comp_mx (matmul' r s) (M *m N).
Proof.
  move=> [a [-> [Sa Ea]]] [b [-> [Sb Eb]]]. rewrite /= /matmul_nd Sa Sb /= Nat.eqb_refl.
  eexists; split; first reflexivity. split=> //= i j. rewrite nsum_big mxE. apply: eq_bigr => t _.
  by rewrite /= Ea Eb.
Qed.
Lemma cv_mul m k l r s (M : 'M[R]_(m, k)) (v : 'cV[R]_k) :
  comp_mx r M -> comp_vec l s v -> comp_vec l (matmul' r s) (M *m v).
Proof.
  case: l; last exact: cm_mul.
  move=> [a [-> [Sa Ea]]] [b [-> [Sb Eb]]]. rewrite /= /matmul_nd Sa Sb /= Nat.eqb_refl.
  eexists; split; first reflexivity. split=> //= i. rewrite nsum_big mxE. apply: eq_bigr => t _.
  by rewrite /= Ea Eb.
Qed.
Lemma cr_mul m k l r s (v : 'rV[R]_m) (M : 'M[R]_(m, k)) :
  comp_row l r v -> comp_mx s M -> comp_row l (matmul' r s) (v *m M).
Proof.
  case: l; last exact: cm_mul.
  move=> [a [-> [Sa Ea]]] [b [-> [Sb Eb]]]. rewrite /= /matmul_nd Sa Sb /= Nat.eqb_refl.
  eexists; split; first reflexivity. split=> //= i. rewrite nsum_big mxE. apply: eq_bigr => t _.
  by rewrite /= Ea Eb.
Qed.
Lemma cn_dot k l r s (u : 'rV[R]_k) (v : 'cV[R]_k) :
  comp_row l r u -> comp_vec l s v -> comp_num (matmul' r s) ((u *m v) 0 0).
Proof.
  case: l; last first.
  { move=> H1 H2. case: (cm_mul H1 H2) => c [-> [S E]]. exists c. split=> //. right. split=> //. exact: (E 0 0). }
  move=> [a [-> [Sa Ea]]] [b [-> [Sb Eb]]]. rewrite /= /matmul_nd Sa Sb /= Nat.eqb_refl.
  eexists; split; first reflexivity. left. split=> //=. rewrite nsum_big mxE. apply: eq_bigr => t _.
  by rewrite /= Ea Eb.
Qed.

Lemma c_let T r (P : nd R -> Prop) (k : nd R -> res T) (Q : res T -> Prop) :
  (exists a, r = Ok a /\ P a) -> (forall a, P a -> Q (k a)) -> Q (bind r k).
Proof. by move=> [a [-> H]] HQ; apply: HQ. Qed.

(** a concrete inversion routine *)
Definition real_inv (a : nd R) : res (nd R) :=
  match nd_shape a with
  | [:: n; n'] =>
      if Nat.eqb n n' then
        Ok (mkNd [:: n; n] (fun i =>
              match i with
              | [:: r; c] =>
                  match insub r, insub c with
                  | Some r', Some c' =>
                      (invmx (\matrix_(p < n, q < n) nd_entry a [:: nat_of_ord p; nat_of_ord q])) r' c'
                  | _, _ => 0
                  end
              | _ => 0
              end))
      else Raise LinAlgError
  | _ => Raise LinAlgError
  end.
Lemma real_inv_inverts : inverts real_inv.
Proof.
  move=> n a M [S E] _. rewrite /real_inv S Nat.eqb_refl. eexists; split; first reflexivity. split=> //= i j.
  rewrite !insubT //= => Hi Hj. congr (invmx _ _ _).
  - apply/matrixP => p q. by rewrite mxE E.
  - exact: val_inj.
  - exact: val_inj.
Qed.
Definition of_mx m n (M : 'M[R]_(m, n)) : nd R :=
  mkNd [:: m; n] (fun i => match i with
    | [:: r; c] => match insub r, insub c with Some r', Some c' => M r' c' | _, _ => 0 end
    | _ => 0 end).
Lemma of_mx_holds m n (M : 'M[R]_(m, n)) : holds_mx (of_mx M) M.
Proof. split=> //= i j. rewrite !insubT //= => Hi Hj. congr (M _ _); exact: val_inj. Qed.
