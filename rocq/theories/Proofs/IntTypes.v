(** Numpy's integers. *)

From Coq Require Import ZArith Bool String Reals Lra Lia.
From Verif Require Import Model.Num Model.Py Model.Table Model.PyNum Model.IntTypes Spec.IntTypes Proofs.Param.
From Coq Require Import List.
Import ListNotations.
Open Scope Z_scope.

(** ** Generalities *)

Lemma Forall2_cons_iff {A B} (P : A -> B -> Prop) a l b l' : Forall2 P (a :: l) (b :: l') <-> P a b /\ Forall2 P l l'.
Proof. split. intros H; now inversion H. intros []; now constructor. Qed.

Lemma wrap_fits t z : fits t z = true -> wrap t z = z.
Proof.
  unfold fits, wrap. rewrite andb_true_iff, !Z.leb_le. intros [H1 H2]. rewrite Z.mod_small. ring.
  destruct t as [[] []]; unfold lowest, highest in *; cbn [i_signed i_width bits] in *; lia.
Qed.

(** The functions of the table through a relation that only says something of the left side's
    successes. *)
Definition ok_rel {A B} (g : A -> B) (a : res A) (b : res B) : Prop := match a with Ok v => b = Ok (g v) | Raise _ => True end.
Lemma ok_sequence {A B} (g : A -> B) l l' out : Forall2 (ok_rel g) l l' -> sequence l = Ok out -> sequence l' = Ok (map g out).
Proof.
  intros H. revert out. induction H as [|a b l l' Hab _ IH]; intros out E; cbn in *.
  - injection E as <-. reflexivity.
  - destruct a as [a|]; cbn in *; [|discriminate]. destruct (sequence l) as [o|]; cbn in *; [|discriminate]. injection E as <-.
    rewrite Hab. cbn. now rewrite (IH o eq_refl).
Qed.
Lemma ok_args {A B} (g : A -> B) args : Forall2 (ok_rel g) (map Ok args) (map Ok (map g args)).
Proof. induction args; cbn; constructor; auto. reflexivity. Qed.
Lemma ok_run {A B} (NA : Num (res A)) (NB : Num (res B)) UA UB (g : A -> B) f args out : NumRel NA NB UA UB (ok_rel g) ->
  bind (run (NA := NA) UA f (map Ok args)) sequence = Ok out ->
  bind (run (NA := NB) UB f (map Ok (map g args))) sequence = Ok (map g out).
Proof.
  intros N H. pose proof (run_rel NA NB UA UB _ N f _ _ (ok_args g args)) as E. unfold res_rel in E.
  destruct (run UA f (map Ok args)); [|discriminate]. destruct (run UB f (map Ok (map g args))); [|contradiction].
  cbn in *. now apply (ok_sequence g a).
Qed.

Lemma ok_v2 {A B} (g : A -> B) (f : A -> A -> res A) (h : B -> B -> res B) a a' b b' :
  (forall x y, ok_rel g (f x y) (h (g x) (g y))) -> ok_rel g a b -> ok_rel g a' b' ->
  ok_rel g (bind a (fun a => bind a' (fun a' => f a a'))) (bind b (fun b => bind b' (fun b' => h b b'))).
Proof. intros H Ha Ha'. destruct a; cbn in *; auto. rewrite Ha. cbn. destruct a'; cbn in *; auto. rewrite Ha'. apply H. Qed.
Lemma ok_v1 {A B} (g : A -> B) (f : A -> res A) (h : B -> res B) a b :
  (forall x, ok_rel g (f x) (h (g x))) -> ok_rel g a b -> ok_rel g (bind a f) (bind b h).
Proof. intros H Ha. destruct a; cbn in *; auto. rewrite Ha. apply H. Qed.

(** ** Checked arithmetic is the arithmetic of numpy, and of the reals *)

Definition identity (v : nv) : nv := v.
Lemma checked_keep t z : ok_rel identity (checked t z) (numpy_keeps t z).
Proof. unfold checked, numpy_keeps. destruct (fits t z) eqn:E; cbn; auto. now rewrite wrap_fits. Qed.
Lemma checked_arith opZ opR a b : ok_rel identity (arith checked opZ opR a b) (arith numpy_keeps opZ opR a b).
Proof. unfold arith. destruct (common a b) as [[[t|]|]|]; cbn; auto. apply checked_keep. Qed.
Lemma rfl {A} (a : res A) (g : A -> A) : (forall x, g x = x) -> ok_rel g a a.
Proof. intros H. destruct a; cbn; auto. now rewrite H. Qed.

Lemma checked_wraps arctan2 : NumRel (NumInt checked) (NumInt numpy_keeps) (Ufuncs_int checked arctan2) (Ufuncs_int numpy_keeps arctan2) (ok_rel identity).
Proof.
  split; cbn; intros; unfold v1, v2, flt1; try (apply ok_v2; auto; intros); try (apply ok_v1; auto; intros); try reflexivity; try apply checked_arith;
    try now apply rfl.
  destruct x; cbn; auto. apply checked_keep.
Qed.

Lemma exact_arith opZ opR a b : (forall x y, IZR (opZ x y) = opR (IZR x) (IZR y)) ->
  ok_rel value (arith checked opZ opR a b) (Ok (opR (value a) (value b))).
Proof.
  intros H. unfold arith. destruct a as [x|s x|x], b as [y|t y|y]; cbn; auto; rewrite <- ?H; auto.
  - destruct (fits t x); cbn; auto. unfold checked. destruct (fits t (opZ x y)); cbn; auto.
  - destruct (fits s y); cbn; auto. unfold checked. destruct (fits s (opZ x y)); cbn; auto.
  - destruct (promote s t) as [u|]; cbn. unfold checked. destruct (fits u (opZ x y)); cbn; auto. now rewrite H.
Qed.
Lemma IZR_max x y : IZR (Z.max x y) = Rmax (IZR x) (IZR y).
Proof. unfold Rmax. destruct (Rle_dec (IZR x) (IZR y)) as [H|H]. apply le_IZR in H. now rewrite Z.max_r. rewrite Z.max_l; auto. apply Z.lt_le_incl. apply Z.nle_gt. intros C. apply H. now apply IZR_le. Qed.
Lemma IZR_sq x : IZR (x ^ 2) = (IZR x ^ 2)%R.
Proof. rewrite Z.pow_2_r, mult_IZR. ring. Qed.
Lemma value_flt (r : res R) : ok_rel value (rmap Flt r) r.
Proof. destruct r; cbn; auto. Qed.
Lemma exact_divide a b : ok_rel value (divide a b) (py_div (value a) (value b)).
Proof. unfold divide. destruct (common a b); cbn; auto. apply value_flt. Qed.

Lemma checked_exact arctan2 : NumRel (NumInt checked) NumPy (Ufuncs_int checked arctan2) (Ufuncs_py arctan2) (ok_rel value).
Proof.
  split; cbn; intros; unfold v1, v2, flt1, py1, py2; try (apply ok_v2; auto; intros); try (apply ok_v1; auto; intros); try reflexivity; try apply value_flt.
  - apply (exact_arith Z.add Rplus). apply plus_IZR.
  - apply (exact_arith Z.sub Rminus). apply minus_IZR.
  - apply (exact_arith Z.mul Rmult). apply mult_IZR.
  - apply exact_divide.
  - change (ok_rel value (square checked x) (Ok (value x ^ 2)%R)). destruct x as [z|t z|r]; cbn -[Z.pow pow]; rewrite ?IZR_sq; auto.
    unfold checked. destruct (fits t (z ^ 2)); cbn -[Z.pow pow]; auto. now rewrite IZR_sq.
  - apply (exact_arith Z.max Rmax). apply IZR_max.
Qed.

Lemma run_checked_exact arctan2 f args out : run_checked arctan2 f args = Ok out ->
  run_int arctan2 f args = Ok out /\ run_py arctan2 f (map value args) = Ok (map value out).
Proof.
  intros H. split.
  - pose proof (ok_run _ _ _ _ identity f args out (checked_wraps arctan2) H) as E. unfold identity in E. now rewrite !map_id in E.
  - exact (ok_run _ _ _ _ value f args out (checked_exact arctan2) H).
Qed.

(** ** A relation that gives the whole result, errors included *)

Definition same_rel {A B} (P : A -> Prop) (g : A -> B) (a : res A) (b : res B) : Prop :=
  match a with Ok v => P v /\ b = Ok (g v) | Raise e => b = Raise e end.
Lemma same_sequence {A B} (P : A -> Prop) (g : A -> B) l l' : Forall2 (same_rel P g) l l' -> rmap (map g) (sequence l) = sequence l'.
Proof.
  intros H. induction H as [|a b l l' Hab _ IH]; auto. cbn. destruct a as [a|e]; cbn in Hab.
  - destruct Hab as [_ ->]. cbn. rewrite <- IH. now destruct (sequence l).
  - now rewrite Hab.
Qed.
Lemma same_args {A B} (P : A -> Prop) (g : A -> B) args : Forall P args -> Forall2 (same_rel P g) (map Ok args) (map Ok (map g args)).
Proof. induction 1; cbn; constructor; auto. split; auto. Qed.
Lemma same_v2 {A B} (P : A -> Prop) (g : A -> B) (f : A -> A -> res A) (h : B -> B -> res B) a a' b b' :
  (forall x y, P x -> P y -> same_rel P g (f x y) (h (g x) (g y))) -> same_rel P g a b -> same_rel P g a' b' ->
  same_rel P g (bind a (fun a => bind a' (fun a' => f a a'))) (bind b (fun b => bind b' (fun b' => h b b'))).
Proof.
  intros H Ha Ha'. destruct a; cbn in *; [|now rewrite Ha]. destruct Ha as [Pa ->]. cbn.
  destruct a'; cbn in *; [|now rewrite Ha']. destruct Ha' as [Pa' ->]. now apply H.
Qed.
Lemma same_v1 {A B} (P : A -> Prop) (g : A -> B) (f : A -> res A) (h : B -> res B) a b :
  (forall x, P x -> same_rel P g (f x) (h (g x))) -> same_rel P g a b -> same_rel P g (bind a f) (bind b h).
Proof. intros H Ha. destruct a; cbn in *; [|now rewrite Ha]. destruct Ha as [Pa ->]. now apply H. Qed.

Lemma python_flt (r : res R) : same_rel python_number value (rmap Flt r) r.
Proof. destruct r; cbn; auto. Qed.
Lemma python_arith opZ opR a b : (forall x y, IZR (opZ x y) = opR (IZR x) (IZR y)) -> python_number a -> python_number b ->
  same_rel python_number value (arith numpy_keeps opZ opR a b) (Ok (opR (value a) (value b))).
Proof. intros H. unfold arith. destruct a as [x|s x|x], b as [y|t y|y]; cbn; try tauto; intros; rewrite ?H; auto. Qed.
Lemma python_exact arctan2 : NumRel (NumInt numpy_keeps) NumPy (Ufuncs_int numpy_keeps arctan2) (Ufuncs_py arctan2) (same_rel python_number value).
Proof.
  split; cbn; intros; unfold v1, v2, flt1, py1, py2; try (apply same_v2; auto; intros); try (apply same_v1; auto; intros); try (now split); try apply python_flt.
  - apply (python_arith Z.add Rplus); auto. apply plus_IZR.
  - apply (python_arith Z.sub Rminus); auto. apply minus_IZR.
  - apply (python_arith Z.mul Rmult); auto. apply mult_IZR.
  - unfold divide. destruct x, y; cbn in *; try tauto; apply python_flt.
  - change (same_rel python_number value (square numpy_keeps x) (Ok (value x ^ 2)%R)). destruct x as [z|t z|r]; cbn -[Z.pow pow]; rewrite ?IZR_sq; auto. destruct H0.
  - apply (python_arith Z.max Rmax); auto. apply IZR_max.
Qed.
Lemma run_python arctan2 f args : Forall python_number args -> numbers (run_int arctan2 f args) = run_py arctan2 f (map value args).
Proof.
  intros H. pose proof (run_rel _ _ _ _ _ (python_exact arctan2) f _ _ (same_args _ value args H)) as E. unfold res_rel in E.
  unfold run_int, run_keep, run_py, numbers. destruct (run (Ufuncs_int numpy_keeps arctan2) f (map Ok args)), (run (Ufuncs_py arctan2) f (map Ok (map value args))); try contradiction.
  - cbn. now apply (same_sequence python_number).
  - cbn. now rewrite E.
Qed.

(** ** Bounds *)

(** The arithmetic of bounds: [Some b] is a float or an integer of size at most [b],
    [None] an integer that may exceed [cap]. *)
Definition capped (cap b : Z) : option Z := if b <=? cap then Some b else None.
Definition obind (a : option Z) (f : Z -> option Z) : option Z := match a with Some a => f a | None => None end.
Definition o2 (cap : Z) (op : Z -> Z -> Z) (a b : option Z) : option Z := obind a (fun a => obind b (fun b => capped cap (op a b))).
Definition NumMag (cap : Z) : Num (option Z) := {|
  nadd := o2 cap Z.add; nsub := o2 cap Z.add; nmul := o2 cap Z.mul; ndiv := o2 cap (fun _ _ => 0);
  nlit := fun z => capped cap (Z.abs z); nhalf := Some 0; nsq := fun a => obind a (fun a => capped cap (a * a));
  nsqrt := fun a => obind a (fun _ => Some 0); nrsqrt := fun a => obind a (fun _ => Some 0); npow := o2 cap (fun _ _ => 0) |}.
Definition UMag (cap : Z) : Ufuncs (option Z) :=
  mkUfuncs (fun a => obind a (fun _ => Some 0)) (o2 cap Z.max) (fun a => obind a (fun _ => Some 0)) (fun a => obind a (fun _ => Some 0)) (o2 cap (fun _ _ => 0)).

(** Both at once. *)
Definition both1 {A B} (f : A -> A) (g : B -> B) (p : A * B) : A * B := (f (fst p), g (snd p)).
Definition both2 {A B} (f : A -> A -> A) (g : B -> B -> B) (p q : A * B) : A * B := (f (fst p) (fst q), g (snd p) (snd q)).
Definition NumProd {A B} (NA : Num A) (NB : Num B) : Num (A * B) := {|
  nadd := both2 nadd nadd; nsub := both2 nsub nsub; nmul := both2 nmul nmul; ndiv := both2 ndiv ndiv;
  nlit := fun z => (nlit z, nlit z); nhalf := (nhalf, nhalf); nsq := both1 nsq nsq; nsqrt := both1 nsqrt nsqrt; nrsqrt := both1 nrsqrt nrsqrt;
  npow := both2 npow npow |}.
Definition UProd {A B} (UA : Ufuncs A) (UB : Ufuncs B) : Ufuncs (A * B) :=
  mkUfuncs (both1 (u_ln UA) (u_ln UB)) (both2 (u_max UA) (u_max UB)) (both1 (u_sin UA) (u_sin UB)) (both1 (u_cos UA) (u_cos UB))
    (both2 (u_arctan2 UA) (u_arctan2 UB)).
Lemma prod_fst {A B} (NA : Num A) (NB : Num B) UA UB : NumRel (NumProd NA NB) NA (UProd UA UB) UA (fun p a => fst p = a).
Proof. split; cbn; intros; subst; reflexivity. Qed.
Lemma prod_snd {A B} (NA : Num A) (NB : Num B) UA UB : NumRel (NumProd NA NB) NB (UProd UA UB) UB (fun p a => snd p = a).
Proof. split; cbn; intros; subst; reflexivity. Qed.

Section Bounds.
Context (w : width) (arctan2 : R -> R -> R).
Let cap := 2 ^ (bits w - 1) - 1.
Definition good (m : option Z) (v : res nv) (r : res R) : Prop :=
  match m with None => True | Some b => 0 <= b <= cap /\ same_rel (moderate w b) value v r end.
Definition good_pair (p : option Z * res nv) (r : res R) : Prop := good (fst p) (snd p) r.

Lemma cap_fits t z : i_signed t = true -> bits w <= bits (i_width t) -> Z.abs z <= cap -> fits t z = true.
Proof.
  unfold fits, lowest, highest. intros -> H1 H2. rewrite andb_true_iff, !Z.leb_le. unfold cap in H2.
  assert (2 ^ (bits w - 1) <= 2 ^ (bits (i_width t) - 1)) by (apply Z.pow_le_mono_r; lia). lia.
Qed.
Lemma common_cases b c x y : moderate w b x -> moderate w c y -> b <= cap -> c <= cap ->
  (exists t, common x y = Ok (inl (Some t)) /\ i_signed t = true /\ bits w <= bits (i_width t) /\ value x = IZR (int_of x) /\ value y = IZR (int_of y) /\
     Z.abs (int_of x) <= b /\ Z.abs (int_of y) <= c) \/
  (common x y = Ok (inl None) /\ value x = IZR (int_of x) /\ value y = IZR (int_of y) /\ Z.abs (int_of x) <= b /\ Z.abs (int_of y) <= c) \/
  common x y = Ok (inr tt).
Proof.
  intros Hx Hy Hb Hc. destruct x as [x|s x|x], y as [y|t y|y]; cbn in *; auto.
  - right. left. auto.
  - left. exists t. destruct Hy as (S1 & S2 & S3). rewrite (cap_fits t x) by (auto; lia). repeat split; auto.
  - left. exists s. destruct Hx as (S1 & S2 & S3). rewrite (cap_fits s y) by (auto; lia). repeat split; auto.
  - left. destruct Hx as (S1 & S2 & S3), Hy as (T1 & T2 & T3). exists (mkIty true (wmax (i_width s) (i_width t))).
    unfold promote. rewrite S1, T1. cbn. repeat split; auto. unfold wmax. destruct (wider _ _); auto.
Qed.

Lemma capped_some b d : 0 <= b -> capped cap b = Some d -> b = d /\ 0 <= d <= cap.
Proof. unfold capped. destruct (Z.leb_spec b cap); intros; try discriminate. injection H1 as <-. lia. Qed.
Lemma good_2 op (f : nv -> nv -> res nv) (h : R -> R -> res R) m m' v v' r r' :
  (forall a b, 0 <= a -> 0 <= b -> 0 <= op a b) ->
  (forall b c x y, moderate w b x -> moderate w c y -> b <= cap -> c <= cap -> op b c <= cap -> 0 <= b -> 0 <= c ->
     same_rel (moderate w (op b c)) value (f x y) (h (value x) (value y))) ->
  good m v r -> good m' v' r' -> good (o2 cap op m m') (v2 f v v') (py2 h r r').
Proof.
  intros Ho H G G'. destruct m as [b|], m' as [c|]; cbn; auto. destruct G as [B G], G' as [C G'].
  destruct (capped cap (op b c)) as [d|] eqn:E; cbn; auto. apply capped_some in E as [<- E]; [|apply Ho; lia]. split; auto.
  unfold v2, py2. destruct v as [x|e]; cbn in *; [|now rewrite G]. destruct G as [Px ->]. cbn.
  destruct v' as [y|e]; cbn in *; [|now rewrite G']. destruct G' as [Py ->]. cbn. apply H; auto; lia.
Qed.
Lemma good_1 op (f : nv -> res nv) (h : R -> res R) m v r : (forall a, 0 <= a -> 0 <= op a) ->
  (forall b x, moderate w b x -> b <= cap -> op b <= cap -> 0 <= b -> same_rel (moderate w (op b)) value (f x) (h (value x))) ->
  good m v r -> good (obind m (fun a => capped cap (op a))) (v1 f v) (py1 h r).
Proof.
  intros Ho H G. destruct m as [b|]; cbn; auto. destruct G as [B G].
  destruct (capped cap (op b)) as [d|] eqn:E; cbn; auto. apply capped_some in E as [<- E]; [|apply Ho; lia]. split; auto.
  unfold v1, py1. destruct v as [x|e]; cbn in *; [|now rewrite G]. destruct G as [Px ->]. cbn. apply H; auto; lia.
Qed.
Lemma moderate_flt b (r : res R) : same_rel (moderate w b) value (rmap Flt r) r.
Proof. destruct r; cbn; auto. Qed.
Lemma moderate_arith opZ opR op b c x y : (forall x y, IZR (opZ x y) = opR (IZR x) (IZR y)) ->
  (forall i j, Z.abs i <= b -> Z.abs j <= c -> Z.abs (opZ i j) <= op) -> op <= cap -> moderate w b x -> moderate w c y -> b <= cap -> c <= cap ->
  same_rel (moderate w op) value (arith numpy_keeps opZ opR x y) (Ok (opR (value x) (value y))).
Proof.
  intros Hop Hb Hc Mx My Cb Cc. unfold arith.
  destruct (common_cases b c x y Mx My Cb Cc) as [(t & E & T1 & T2 & Vx & Vy & Bx & By)|[(E & Vx & Vy & Bx & By)|E]]; rewrite E; cbn.
  - specialize (Hb _ _ Bx By). rewrite wrap_fits by (apply cap_fits; auto; lia). rewrite Vx, Vy, <- Hop. auto.
  - rewrite Vx, Vy, <- Hop. auto.
  - auto.
Qed.
Lemma cap_pos : 127 <= cap.
Proof. unfold cap. destruct w; cbn; lia. Qed.

Lemma bounds_sound : NumRel (NumProd (NumMag cap) (NumInt numpy_keeps)) NumPy (UProd (UMag cap) (Ufuncs_int numpy_keeps arctan2)) (Ufuncs_py arctan2) good_pair.
Proof.
  pose proof cap_pos as K.
  assert (F1 : forall h m v r, good m v r -> good (obind m (fun _ => Some 0)) (flt1 h v) (py1 h r)).
  { intros h m v r G. destruct m as [b|]; cbn; auto. destruct G as [B G]. split. lia. unfold flt1, v1, py1.
    destruct v as [x|e]; cbn in *; [|now rewrite G]. destruct G as [Px ->]. cbn. apply moderate_flt. }
  split; cbn; intros; unfold good_pair, both1, both2 in *; cbn [fst snd] in *.
  - apply (good_2 Z.add); auto; try lia. intros. apply (moderate_arith Z.add Rplus _ b0 c); auto. apply plus_IZR. lia.
  - apply (good_2 Z.add); auto; try lia. intros. apply (moderate_arith Z.sub Rminus _ b0 c); auto. apply minus_IZR. lia.
  - apply (good_2 Z.mul); auto; try nia. intros. apply (moderate_arith Z.mul Rmult _ b0 c); auto. apply mult_IZR.
    intros i j Hi Hj. rewrite Z.abs_mul. apply Z.mul_le_mono_nonneg; lia.
  - apply (good_2 (fun _ _ => 0)); auto; try lia. intros. unfold divide.
    destruct (common_cases b0 c x y) as [(t & E & _)|[(E & _)|E]]; auto; rewrite E; cbn; apply moderate_flt.
  - unfold good. destruct (capped cap (Z.abs z)) as [d|] eqn:E; auto. apply capped_some in E as [<- E]; [|lia]. cbn. repeat split; auto; lia.
  - cbn. repeat split; auto; lia.
  - apply (good_1 (fun a => a * a) _ (fun a => Ok (a ^ 2)%R)); auto; try nia. intros c x Mx Bc Bcc Pc. destruct x as [z|t z|x]; cbn -[Z.pow pow] in *.
    + rewrite IZR_sq. split; auto. rewrite Z.pow_2_r, Z.abs_mul. apply Z.mul_le_mono_nonneg; lia.
    + destruct Mx as (M1 & M2 & M3). assert (Z.abs (z ^ 2) <= c * c) by (rewrite Z.pow_2_r, Z.abs_mul; apply Z.mul_le_mono_nonneg; lia).
      rewrite wrap_fits by (apply cap_fits; auto; lia). rewrite IZR_sq. auto.
    + auto.
  - now apply F1.
  - now apply F1.
  - now apply F1.
  - apply (good_2 Z.max); auto; try lia. intros. apply (moderate_arith Z.max Rmax _ b0 c); auto. apply IZR_max. lia.
  - now apply F1.
  - now apply F1.
  - apply (good_2 (fun _ _ => 0) _ (fun a b => Ok (arctan2 a b))); auto; try lia. intros. cbn. auto.
Qed.

Definition mag_ok (bound : Z) (f : fn) (k : nat) : bool :=
  match run (NA := NumMag cap) (UMag cap) f (repeat (Some bound) k) with
  | Ok out => forallb (fun m => match m with Some _ => true | None => false end) out
  | Raise _ => true
  end.

Lemma run_bounded bound f args : 0 <= bound <= cap -> mag_ok bound f (length args) = true -> Forall (moderate w bound) args ->
  numbers (run_int arctan2 f args) = run_py arctan2 f (map value args).
Proof.
  intros B M H. set (pairs := map (fun v => (Some bound, Ok v)) args : list (option Z * res nv)).
  assert (A1 : Forall2 (fun p a => fst p = a) pairs (repeat (Some bound) (length args))) by (unfold pairs; clear; induction args; cbn; constructor; auto).
  assert (A2 : Forall2 (fun p a => snd p = a) pairs (map Ok args)) by (unfold pairs; clear; induction args; cbn; constructor; auto).
  assert (A3 : Forall2 good_pair pairs (map Ok (map value args))).
  { unfold pairs. clear - H B. induction H; cbn; constructor; auto. split; auto. split; auto. }
  pose proof (run_rel _ _ _ _ _ (prod_fst (NumMag cap) (NumInt numpy_keeps) (UMag cap) (Ufuncs_int numpy_keeps arctan2)) f _ _ A1) as E1.
  pose proof (run_rel _ _ _ _ _ (prod_snd (NumMag cap) (NumInt numpy_keeps) (UMag cap) (Ufuncs_int numpy_keeps arctan2)) f _ _ A2) as E2.
  pose proof (run_rel _ _ _ _ _ bounds_sound f _ _ A3) as E3. unfold mag_ok in M. unfold res_rel in *.
  unfold run_int, run_keep, run_py, numbers.
  destruct (run (UProd (UMag cap) (Ufuncs_int numpy_keeps arctan2)) f pairs) as [ps|e].
  - destruct (run (UMag cap) f (repeat (Some bound) (length args))) as [ms|]; [|contradiction].
    destruct (run (Ufuncs_int numpy_keeps arctan2) f (map Ok args)) as [vs|]; [|contradiction].
    destruct (run (Ufuncs_py arctan2) f (map Ok (map value args))) as [rs|]; [|contradiction]. cbn [bind].
    revert ms vs rs M E1 E2 E3. induction ps as [|[m v] ps IH]; intros ms vs rs M E1 E2 E3.
    + inversion E2. inversion E3. reflexivity.
    + destruct ms as [|m' ms]; [inversion E1|]. destruct vs as [|v' vs]; [inversion E2|]. destruct rs as [|r rs]; [inversion E3|].
      apply Forall2_cons_iff in E1 as [Em E1]. apply Forall2_cons_iff in E2 as [Ev E2]. apply Forall2_cons_iff in E3 as [G E3].
      cbn in M, Em, Ev. subst m' v'. apply andb_true_iff in M as [M1 M2]. specialize (IH _ _ _ M2 E1 E2 E3).
      destruct m as [b|]; [|discriminate]. destruct G as [_ G]. cbn in G |- *. destruct v as [v|e]; cbn in *.
      * destruct G as [_ ->]. cbn. rewrite <- IH. now destruct (sequence vs).
      * now rewrite G.
  - destruct (run (Ufuncs_int numpy_keeps arctan2) f (map Ok args)); [contradiction|].
    destruct (run (Ufuncs_py arctan2) f (map Ok (map value args))); [contradiction|]. cbn. now rewrite <- E2, <- E3.
Qed.
End Bounds.

Lemma limit_cap w f : 0 <= limit w f <= 2 ^ (bits w - 1) - 1.
Proof. unfold limit. destruct (degree_of f), w; cbn; lia. Qed.
Lemma limit_ok w f k : mag_ok w (limit w f) f k = true.
Proof.
  do 9 (destruct k as [|k]; [destruct f, w; try destruct one_start; vm_compute; reflexivity|]).
  destruct f, w; reflexivity.
Qed.
Lemma run_moderate w arctan2 f args : Forall (moderate w (limit w f)) args ->
  numbers (run_int arctan2 f args) = run_py arctan2 f (map value args).
Proof. apply (run_bounded w). apply limit_cap. apply limit_ok. Qed.

(** ** Modular arithmetic *)

Definition modulus (t : ity) : Z := 2 ^ bits (i_width t).
Lemma modulus_pos t : 0 < modulus t.
Proof. unfold modulus. destruct t as [s []]; cbn; lia. Qed.
Lemma wrap_range t z : lowest t <= wrap t z <= highest t.
Proof.
  unfold wrap. pose proof (Z.mod_pos_bound (z - lowest t) (modulus t) (modulus_pos t)) as H. unfold modulus in H.
  destruct t as [[] []]; unfold lowest, highest in *; cbn [i_signed i_width bits] in *; lia.
Qed.
Lemma wrap_mod t z : exists k, z = wrap t z + k * modulus t.
Proof.
  exists ((z - lowest t) / modulus t). unfold wrap. pose proof (Z.div_mod (z - lowest t) (modulus t)) as H. pose proof (modulus_pos t).
  fold (modulus t). lia.
Qed.
Lemma wrap_unique t x k : lowest t <= x <= highest t -> wrap t (x + k * modulus t) = x.
Proof.
  intros H. unfold wrap. replace (x + k * modulus t - lowest t) with (x - lowest t + k * modulus t) by ring. fold (modulus t).
  rewrite Z.mod_add by (pose proof (modulus_pos t); lia). rewrite Z.mod_small. ring. unfold modulus.
  destruct t as [[] []]; unfold lowest, highest in *; cbn [i_signed i_width bits] in *; lia.
Qed.
Lemma wrap_congr t x y k : x = y + k * modulus t -> wrap t x = wrap t y.
Proof.
  intros ->. destruct (wrap_mod t y) as [j E]. rewrite E at 1. rewrite <- Z.add_assoc, <- Z.mul_add_distr_r. apply wrap_unique, wrap_range.
Qed.

Definition mod_rel (t : ity) (v : res nv) (r : res R) : Prop :=
  match v with
  | Ok (PInt z) => r = Ok (IZR z)
  | Ok (NInt s x) => s = t /\ exists z, r = Ok (IZR z) /\ x = wrap t z
  | Ok (Flt _) => True
  | Raise _ => True
  end.
Lemma promote_same t : promote t t = Some t.
Proof. destruct t as [[] []]; reflexivity. Qed.

Lemma mod_arith t opZ opR v v' r r' : (forall x y, IZR (opZ x y) = opR (IZR x) (IZR y)) ->
  (forall x y, wrap t (opZ (wrap t x) (wrap t y)) = wrap t (opZ x y)) -> (forall x y, wrap t (opZ x (wrap t y)) = wrap t (opZ x y)) ->
  (forall x y, wrap t (opZ (wrap t x) y) = wrap t (opZ x y)) ->
  mod_rel t v r -> mod_rel t v' r' -> mod_rel t (v2 (arith numpy_keeps opZ opR) v v') (py2 (fun a b => Ok (opR a b)) r r').
Proof.
  intros H W1 W2 W3 G G'. destruct v as [[x|s x|x]|]; cbn; auto; destruct v' as [[y|s' y|y]|]; cbn in *; auto.
  - subst. cbn. now rewrite H.
  - destruct G' as (-> & z & -> & ->). rewrite G. unfold arith. cbn. destruct (fits t x); cbn; auto. split; auto. exists (opZ x z). rewrite H. auto.
  - destruct G as (-> & z & -> & ->). rewrite G'. unfold arith. cbn. destruct (fits t y); cbn; auto. split; auto. exists (opZ z y). rewrite H. auto.
  - destruct G as (-> & z & -> & ->), G' as (-> & z' & -> & ->). unfold arith. cbn. rewrite promote_same. cbn. split; auto.
    exists (opZ z z'). rewrite H. auto.
Qed.
Lemma mod_flt1 t f v r : mod_rel t (flt1 f v) r.
Proof. destruct v as [v|]; cbn; auto. destruct (f (value v)); cbn; auto. Qed.

(** The table without [np.maximum]. *)
Definition Ufuncs_no_max (arctan2 : R -> R -> R) : Ufuncs (res nv) :=
  mkUfuncs (flt1 py_ln) (fun _ _ => Raise KeyError) (flt1 (fun a => Ok (sin a))) (flt1 (fun a => Ok (cos a)))
           (v2 (fun a b => Ok (Flt (arctan2 (value a) (value b))))).
Lemma no_max arctan2 f args : f <> F_uniform_pareto ->
  run (NA := NumInt numpy_keeps) (Ufuncs_int numpy_keeps arctan2) f args = run (NA := NumInt numpy_keeps) (Ufuncs_no_max arctan2) f args.
Proof. intros H. destruct f; try reflexivity. now destruct H. Qed.

Lemma mod_sound t arctan2 : NumRel (NumInt numpy_keeps) NumPy (Ufuncs_no_max arctan2) (Ufuncs_py arctan2) (mod_rel t).
Proof.
  split; cbn -[Z.pow pow]; intros; try apply mod_flt1; auto.
  - apply mod_arith; auto. apply plus_IZR.
    + intros x y. destruct (wrap_mod t x) as [j Ej], (wrap_mod t y) as [k Ek]. symmetry. apply (wrap_congr t _ _ (j + k)). lia.
    + intros x y. destruct (wrap_mod t y) as [k Ek]. symmetry. apply (wrap_congr t _ _ k). lia.
    + intros x y. destruct (wrap_mod t x) as [k Ek]. symmetry. apply (wrap_congr t _ _ k). lia.
  - apply mod_arith; auto. apply minus_IZR.
    + intros x y. destruct (wrap_mod t x) as [j Ej], (wrap_mod t y) as [k Ek]. symmetry. apply (wrap_congr t _ _ (j - k)). lia.
    + intros x y. destruct (wrap_mod t y) as [k Ek]. symmetry. apply (wrap_congr t _ _ (- k)). lia.
    + intros x y. destruct (wrap_mod t x) as [k Ek]. symmetry. apply (wrap_congr t _ _ k). lia.
  - apply mod_arith; auto. apply mult_IZR.
    + intros x y. destruct (wrap_mod t x) as [j Ej], (wrap_mod t y) as [k Ek]. symmetry.
      apply (wrap_congr t _ _ (j * wrap t y + k * wrap t x + j * k * modulus t)). rewrite Ej at 1. rewrite Ek at 1. ring.
    + intros x y. destruct (wrap_mod t y) as [k Ek]. symmetry. apply (wrap_congr t _ _ (x * k)). rewrite Ek at 1. ring.
    + intros x y. destruct (wrap_mod t x) as [k Ek]. symmetry. apply (wrap_congr t _ _ (k * y)). rewrite Ek at 1. ring.
  - unfold v2. destruct a as [x|]; cbn; auto. destruct a' as [y|]; cbn; auto. unfold divide. destruct (common x y); cbn; auto.
    destruct (py_div (value x) (value y)); cbn; auto.
  - destruct a as [[x|s x|x]|]; cbn -[Z.pow pow] in *; auto.
    + rewrite H. cbn -[Z.pow pow]. now rewrite IZR_sq.
    + destruct H as (-> & z & -> & ->). split; auto. exists (z ^ 2). cbn -[Z.pow pow]. rewrite IZR_sq. split; auto.
      destruct (wrap_mod t z) as [k Ek]. rewrite !Z.pow_2_r. symmetry.
      apply (wrap_congr t _ _ (2 * k * wrap t z + k * k * modulus t)). rewrite Ek at 1 2. ring.
  - unfold v2. destruct a as [x|]; cbn; auto. destruct a' as [y|]; cbn; auto.
Qed.

Lemma run_modular t arctan2 f args out exact : f <> F_uniform_pareto -> Forall (of_type t) args -> Forall (fun v => proper v = true) args ->
  run_int arctan2 f args = Ok out -> run_py arctan2 f (map value args) = Ok exact -> Forall2 (right_modulo t) out exact.
Proof.
  intros Hf Ht Hp. unfold run_int, run_keep, run_py. rewrite no_max by auto.
  assert (A : Forall2 (mod_rel t) (map Ok args) (map Ok (map value args))).
  { clear - Ht Hp. induction args as [|v args IH]; cbn; constructor.
    - apply Forall_inv in Ht, Hp. destruct v as [z|s z|x]; cbn in *; auto. subst s. split; auto. exists z. now rewrite wrap_fits.
    - apply IH. now inversion Ht. now inversion Hp. }
  pose proof (run_rel _ _ _ _ _ (mod_sound t arctan2) f _ _ A) as E. unfold res_rel in E.
  destruct (run (Ufuncs_no_max arctan2) f (map Ok args)) as [vs|]; [|discriminate].
  destruct (run (Ufuncs_py arctan2) f (map Ok (map value args))) as [rs|]; [|contradiction]. cbn [bind]. clear - E.
  revert out exact. induction E as [|v r vs rs Hvr _ IH]; intros out exact H1 H2; cbn in *.
  - injection H1 as <-. injection H2 as <-. constructor.
  - destruct v as [v|]; [|discriminate]. destruct r as [r|]; [|discriminate]. cbn in *.
    destruct (sequence vs) as [vs'|]; [|discriminate]. destruct (sequence rs) as [rs'|]; [|discriminate]. cbn in *.
    injection H1 as <-. injection H2 as <-. constructor; auto. destruct v as [z|s x|x]; cbn in *; auto.
    + now injection Hvr.
    + destruct Hvr as (-> & z & Er & ->). injection Er as ->. split; auto. split. apply wrap_range.
      destruct (wrap_mod t z) as [k Ek]. exists k. now rewrite Ek at 1.
Qed.
Lemma right_in_range t x z : right_modulo t (NInt t x) (IZR z) -> lowest t <= z <= highest t -> x = z.
Proof.
  intros (_ & H & k & E) Hz. apply eq_IZR in E. rewrite <- (wrap_unique t x k H). unfold modulus. rewrite <- E.
  apply wrap_fits. unfold fits. rewrite andb_true_iff, !Z.leb_le. auto.
Qed.

(** ** What goes wrong *)

Definition int8 := mkIty true W8.
Lemma poisson_wraps arctan2 :
  run_int arctan2 F_poisson_gamma [NInt uint8 250; PInt 5; PInt 10; PInt 1] = Ok [NInt uint8 4; PInt 6] /\
  run_py arctan2 F_poisson_gamma (map value [NInt uint8 250; PInt 5; PInt 10; PInt 1]) = Ok [260; 6]%R.
Proof. split. reflexivity. cbn. do 3 f_equal; [|f_equal]; lra. Qed.
Lemma poisson_negative arctan2 :
  run_int arctan2 F_poisson_gamma [NInt int8 127; PInt 5; PInt 1; PInt 1] = Ok [NInt int8 (-128); PInt 6].
Proof. reflexivity. Qed.
Lemma python_out_of_bounds arctan2 :
  run_int arctan2 F_poisson_gamma [NInt uint8 3; PInt 5; PInt 300; PInt 1] = Raise (OverflowError "Python integer out of bounds") /\
  run_py arctan2 F_poisson_gamma (map value [NInt uint8 3; PInt 5; PInt 300; PInt 1]) = Ok [303; 6]%R.
Proof. split. reflexivity. cbn. do 3 f_equal; [|f_equal]; lra. Qed.
Lemma mixed_types arctan2 : let args := [NInt int32 3000000; NInt int64 3000003000; PInt 3000; PInt 1000; PInt 1; PInt 1] in
  numbers (run_int arctan2 F_normal_known_mean_ig args) = Ok [1501; 2147485149]%R /\
  run_py arctan2 F_normal_known_mean_ig (map value args) = Ok [1501; 1501]%R.
Proof.
  assert (D : py_div 3000 2 = Ok 1500%R) by (unfold py_div; destruct (Req_EM_T 2 0); [lra|f_equal; lra]).
  cbn. split.
  - unfold numbers, run_int, run_keep. cbn. rewrite D. cbn. repeat (f_equal; try lra).
  - unfold run_py. cbn. rewrite D. cbn. repeat (f_equal; try lra).
Qed.

Lemma poisson_wrong arctan2 :
  (let args := [NInt uint8 250; PInt 5; PInt 10; PInt 1] in
   Forall (fun v => proper v = true) args /\
   run_int arctan2 F_poisson_gamma args = Ok [NInt uint8 4; PInt 6] /\ run_py arctan2 F_poisson_gamma (map value args) = Ok [260; 6]%R) /\
  run_int arctan2 F_poisson_gamma [NInt int8 127; PInt 5; PInt 1; PInt 1] = Ok [NInt int8 (-128); PInt 6].
Proof.
  split; [|apply poisson_negative]. split; [|apply poisson_wraps]. repeat (apply Forall_cons; [reflexivity|]). apply Forall_nil.
Qed.

Lemma contains_range s u : contains u s <-> lowest u <= lowest s /\ highest s <= highest u.
Proof.
  unfold contains. split.
  - intros H. assert (L : forall t, lowest t <= highest t) by (intros [[|] []]; vm_compute; discriminate).
    pose proof (H (lowest s) ltac:(specialize (L s); lia)). pose proof (H (highest s) ltac:(specialize (L s); lia)). lia.
  - intros H z Hz. lia.
Qed.

Definition containsb (u s : ity) : bool := (lowest u <=? lowest s) && (highest s <=? highest u).
Lemma containsb_spec u s : containsb u s = true <-> contains u s.
Proof. rewrite contains_range. unfold containsb. rewrite andb_true_iff, !Z.leb_le. reflexivity. Qed.
Definition types : list ity := flat_map (fun b => map (mkIty b) [W8; W16; W32; W64]) [true; false].
Lemma types_all t : In t types.
Proof. destruct t as [[|] []]; cbn; tauto. Qed.

Lemma promote_least s t :
  match promote s t with
  | Some u => contains u s /\ contains u t /\ forall v, contains v s -> contains v t -> contains v u
  | None => forall v, ~ (contains v s /\ contains v t)
  end.
Proof.
  assert (F : forallb (fun s => forallb (fun t => match promote s t with
    | Some u => containsb u s && containsb u t && forallb (fun v => implb (containsb v s && containsb v t) (containsb v u)) types
    | None => forallb (fun v => negb (containsb v s && containsb v t)) types end) types) types = true) by (vm_compute; reflexivity).
  rewrite forallb_forall in F. specialize (F s (types_all s)). rewrite forallb_forall in F. specialize (F t (types_all t)).
  destruct (promote s t) as [u|].
  - apply andb_true_iff in F as [F F3]. apply andb_true_iff in F as [F1 F2]. rewrite <- !containsb_spec.
    split; [exact F1|]. split; [exact F2|]. intros v. rewrite <- !containsb_spec. intros H1 H2.
    rewrite forallb_forall in F3. specialize (F3 v (types_all v)). rewrite H1, H2 in F3. exact F3.
  - intros v [H1 H2]. rewrite forallb_forall in F. specialize (F v (types_all v)).
    rewrite <- containsb_spec in H1, H2. rewrite H1, H2 in F. discriminate.
Qed.
