(** Dirichlet models. *)

From Coq Require Import Reals Lra Psatz ZArith Lia String.
From Coquelicot Require Import Coquelicot.
From Verif Require Import Model.Num Model.Py Model.NdArray Model.DirichletModel.
From Verif Require Import Spec.Special Spec.Bayes Spec.Simplex Spec.Containers.
From Verif Require Import Analysis.Improper Analysis.RealAux Analysis.GammaBeta Analysis.GammaFacts.
From Verif Require Proofs.Arith Proofs.Pdfs.
From Coq Require Import List.
Import ListNotations.
Open Scope R_scope.

(** ** Containers *)
Section Containers.
Context {A : Type} {NA : Num A}.

Lemma zip_len {B C D} (f : B -> C -> D) l l' : length l = length l' -> length (zip_with f l l') = length l.
Proof. intros H. unfold zip_with. rewrite map_length, combine_length. lia. Qed.
Lemma nth_zip {B C D} (f : B -> C -> D) l l' i d db dc : (i < length l)%nat -> (i < length l')%nat ->
  nth i (zip_with f l l') d = f (nth i l db) (nth i l' dc).
Proof.
  unfold zip_with. revert l' i. induction l as [|a l IH]; intros [|b l'] [|i]; simpl; intros; try lia; auto.
  apply IH; lia.
Qed.

Lemma holds_array c l : holds c l -> nd_shape (to_array c) = [length l] /\
  forall i d, (i < length l)%nat -> nd_entry (to_array c) [i] = nth i l d.
Proof.
  destruct c; simpl; try contradiction; try (intros ->; split; auto; intros; simpl; now apply nth_indep). auto.
Qed.

Lemma bc_same m : broadcast_shapes [m] [m] = Some [m].
Proof. unfold broadcast_shapes. simpl. now rewrite Nat.eqb_refl. Qed.

Lemma add_arrays a b (la lb : list A) : length la = length lb ->
  nd_shape a = [length la] -> (forall i d, (i < length la)%nat -> nd_entry a [i] = nth i la d) ->
  nd_shape b = [length lb] -> (forall i d, (i < length lb)%nat -> nd_entry b [i] = nth i lb d) ->
  exists c, map2 nadd a b = Ok c /\ holds (CArr c) (zip_with nadd la lb).
Proof.
  intros Hl Sa Ea Sb Eb. unfold map2. rewrite Sa, Sb, <- Hl, bc_same. eexists. split; [reflexivity|].
  simpl. rewrite zip_len by auto. split; auto. intros i d Hi.
  rewrite (nth_zip nadd la lb i d d d) by lia.
  unfold at_index. rewrite Sa, Sb, <- Hl. simpl.
  assert (E : (if Nat.eqb (length la) 1 then 0%nat else i) = i) by (destruct (Nat.eqb_spec (length la) 1); lia).
  rewrite E. rewrite (Ea i d), (Eb i d) by lia. reflexivity.
Qed.

Lemma seq_scalar (la lb : list A) :
  sequence (map (fun p => map2 nadd (fst p) (snd p)) (combine (map scalar la) (map scalar lb))) =
  Ok (map (fun p => mkNd [] (fun i => nadd (at_index i (scalar (fst p))) (at_index i (scalar (snd p))))) (combine la lb)).
Proof. revert lb. induction la; intros [|b lb]; simpl; auto. rewrite IHla. reflexivity. Qed.

Lemma as_outcome_scalar (l : list (A * A)) :
  as_outcome (map (fun p => mkNd [] (fun i => nadd (at_index i (scalar (fst p))) (at_index i (scalar (snd p))))) l) =
  OVal (CList (map (fun p => nadd (fst p) (snd p)) l)).
Proof.
  unfold as_outcome. rewrite map_map. replace (forallb _ _) with true. reflexivity.
  symmetry. apply forallb_forall. intros x Hx. apply in_map_iff in Hx. destruct Hx as (y & <- & _). reflexivity.
Qed.

Lemma params_elementwise (c cx : container A) la lx :
  holds c la -> holds cx lx -> length la = length lx -> ~ concatenates c cx ->
  exists out, get_dirichlet_posterior_params c cx = Ok (OVal out) /\ holds out (zip_with nadd la lx) /\
    ((exists a, out = CArr a) <-> (exists a, c = CArr a) \/ (exists a, cx = CArr a)).
Proof.
  intros H Hx Hl N.
  destruct (holds_array c la H) as [S E], (holds_array cx lx Hx) as [Sx Ex].
  destruct (add_arrays (to_array c) (to_array cx) la lx Hl S E Sx Ex) as (r & Er & Hr).
  unfold get_dirichlet_posterior_params.
  destruct c as [?|l|l|a], cx as [?|l'|l'|a']; simpl in H, Hx, N; try contradiction; try tauto; unfold py_add;
    try (rewrite Er; simpl; eexists; split; [reflexivity|]; split; [exact Hr|]; split; [eauto|intros _; eauto]).
  - subst. cbn [elements bind]. rewrite seq_scalar. cbn [bind]. rewrite as_outcome_scalar. eexists. split; [reflexivity|]. split; [reflexivity|].
    split; [intros [? ?]; discriminate|intros [[? ?]|[? ?]]; discriminate].
  - subst. cbn [elements bind]. rewrite seq_scalar. cbn [bind]. rewrite as_outcome_scalar. eexists. split; [reflexivity|]. split; [reflexivity|].
    split; [intros [? ?]; discriminate|intros [[? ?]|[? ?]]; discriminate].
Qed.

(** adding a number to an array of any shape adds it to every entry *)
Lemma params_number (a : nd A) x :
  exists r, get_dirichlet_posterior_params (CArr a) (CNum x) = Ok (OVal (CArr r)) /\
    nd_shape r = nd_shape a /\ forall i, at_index i r = nadd (at_index i a) x.
Proof.
  unfold get_dirichlet_posterior_params, py_add, to_array, map2, broadcast_shapes. simpl.
  assert (E : bc (rev (nd_shape a)) [] = Some (rev (nd_shape a))) by (destruct (rev (nd_shape a)); auto).
  rewrite E. simpl. rewrite rev_involutive. eexists. split; [reflexivity|]. split; [reflexivity|].
  intros i. unfold at_index at 1. simpl. unfold at_index at 1.
  unfold at_index. f_equal. rewrite rev_involutive. f_equal. f_equal.
  generalize (rev (nd_shape a)) (rev i). clear. induction l as [|d s IH]; intros [|k i]; simpl; auto; f_equal; auto.
  now destruct (Nat.eqb d 1).
  now destruct (Nat.eqb d 1).
Qed.

Lemma params_concatenate (la lx : list A) :
  get_dirichlet_posterior_params (CList la) (CList lx) = Ok (OVal (CList (la ++ lx))) /\
  get_dirichlet_posterior_params (CTuple la) (CTuple lx) = Ok (OVal (CTuple (la ++ lx))).
Proof. split; reflexivity. Qed.

Lemma elements_arr c (l : list A) : holds c l -> exists es, elements c = Ok es /\ length es = length l /\
  Forall (fun e => nd_shape e = []) es /\ map (fun e => nd_entry e []) es = l.
Proof.
  destruct c; simpl; try contradiction.
  - intros ->. eexists. split; [reflexivity|]. rewrite map_length, map_map. split; auto. split.
    apply Forall_map. apply Forall_forall. auto. simpl. now rewrite map_id.
  - intros ->. eexists. split; [reflexivity|]. rewrite map_length, map_map. split; auto. split.
    apply Forall_map. apply Forall_forall. auto. simpl. now rewrite map_id.
  - intros [-> E]. eexists. split; [reflexivity|]. rewrite map_length, seq_length, map_map. split; auto. split.
    apply Forall_map. apply Forall_forall. auto. simpl.
    destruct l as [|d l]; auto. apply nth_ext with d d. now rewrite map_length, seq_length.
    rewrite map_length, seq_length. intros i Hi. rewrite (nth_indep _ d (nd_entry a [0%nat])) by (rewrite map_length, seq_length; auto).
    rewrite (map_nth (fun x => nd_entry a [x])). rewrite seq_nth by auto. now apply E.
Qed.

Lemma add_scalars es es' :
  Forall (fun e => nd_shape e = []) es -> Forall (fun e => nd_shape e = []) es' ->
  exists l, sequence (map (fun p => map2 nadd (fst p) (snd p)) (combine es es')) = Ok l /\
    as_outcome l = OVal (CList (zip_with nadd (map (fun e => nd_entry e []) es) (map (fun e => nd_entry (A:=A) e []) es'))).
Proof.
  intros F F'.
  assert (exists l, sequence (map (fun p => map2 nadd (fst p) (snd p)) (combine es es')) = Ok l /\
     Forall (fun e => nd_shape e = []) l /\ map (fun e => nd_entry e []) l = zip_with nadd (map (fun e => nd_entry e []) es) (map (fun e => nd_entry (A:=A) e []) es')) as (l & E & Fl & M).
  { revert es' F'. induction F as [|e es He F IH]; intros es' F'; [simpl; exists []; auto|].
    destruct F' as [|e' es' He' F']; [simpl; exists []; auto|].
    destruct (IH es' F') as (l & E & Fl & M). simpl. rewrite E. unfold map2 at 1. rewrite He, He'. simpl.
    eexists. split; [reflexivity|]. split; [constructor; auto|]. simpl. rewrite M. unfold zip_with. simpl. unfold at_index. now rewrite He, He'. }
  exists l. split; auto. unfold as_outcome. replace (forallb _ _) with true. now rewrite M.
  symmetry. apply forallb_forall. intros x Hx. rewrite Forall_forall in Fl. now rewrite (Fl x Hx).
Qed.

(** vectors of different lengths, at least one not of length 1: truncated *)
Lemma params_truncate (c cx : container A) la lx :
  holds c la -> holds cx lx -> length la <> length lx -> length la <> 1%nat -> length lx <> 1%nat -> ~ concatenates c cx ->
  exists out, get_dirichlet_posterior_params c cx = Ok (OVal (CList out)) /\ out = zip_with nadd la lx /\
    length out = Nat.min (length la) (length lx).
Proof.
  intros H Hx Hl N1 N2 N.
  destruct (holds_array c la H) as [S _], (holds_array cx lx Hx) as [Sx _].
  destruct (elements_arr c la H) as (es & Ee & _ & F & M), (elements_arr cx lx Hx) as (es' & Ee' & _ & F' & M').
  destruct (add_scalars es es' F F') as (l & El & Ol). rewrite M, M' in Ol.
  assert (B : map2 nadd (to_array c) (to_array cx) = Raise (ValueError "operands could not be broadcast together")).
  { unfold map2, broadcast_shapes. rewrite S, Sx. simpl.
    destruct (Nat.eqb_spec (length la) (length lx)); [lia|]. destruct (Nat.eqb_spec (length la) 1); [lia|].
    destruct (Nat.eqb_spec (length lx) 1); [lia|]. reflexivity. }
  assert (P : exists e, py_add c cx = Raise e).
  { destruct c as [?|?|?|?], cx as [?|?|?|?]; simpl in H, Hx, N; try contradiction; try tauto; unfold py_add; try rewrite B; eexists; reflexivity. }
  destruct P as (e & P). unfold get_dirichlet_posterior_params. rewrite P, Ee, Ee'. cbn [bind]. rewrite El. cbn [bind]. rewrite Ol.
  eexists. split; [reflexivity|]. split; auto. unfold zip_with. rewrite map_length. apply combine_length.
Qed.
End Containers.

(** ** Integrals over the simplex *)
Lemma simplex_scal n : forall s f v k, is_simplex_int n s f v -> is_simplex_int n s (fun p => k * f p) (k * v).
Proof.
  induction n as [|n IH]; intros s f v k; simpl.
  - now intros ->.
  - intros (g & H & I). exists (fun x => k * g x). split.
    + intros x Hx. apply (IH (s - x) (fun p => f (x :: p))). auto.
    + apply is_RInt_gen_mult_l; try typeclasses eauto. exact I.
Qed.

Lemma simplex_ext n : forall s f f' v, 0 < s -> (forall p, on_simplex n s p -> f p = f' p) ->
  is_simplex_int n s f v -> is_simplex_int n s f' v.
Proof.
  induction n as [|n IH]; intros s f f' v Hs E; simpl.
  - intros ->. apply E. split; auto. split. repeat constructor; auto. simpl. lra.
  - intros (g & H & I). exists g. split; auto. intros x Hx. apply (IH (s - x) (fun p => f (x :: p))); auto. lra.
    intros p (L & F & S). apply E. split; [simpl; lia|]. split; [constructor; auto; lra|]. simpl. lra.
Qed.

Lemma beta_scaled a b s : 0 < a -> 0 < b -> 0 < s ->
  is_RInt_gen (fun x => Rpower x (a - 1) * Rpower (s - x) (b - 1)) (at_right 0) (at_left s) (Rpower s (a + b - 1) * Beta_fun a b).
Proof.
  intros Ha Hb Hs.
  pose proof (is_RInt_gen_Beta a b Ha Hb) as H.
  apply (is_RInt_gen_subst _ _ _ (ends_open 0 s Hs) (at_right 0) (at_left 1) (fun x => 0 < x < 1) _ (fun x => x / s) (fun _ => / s)) in H.
  - apply (is_RInt_gen_mult_l _ _ _ (Rpower s (a + b - 1))) in H.
    revert H. apply (is_RInt_gen_ext_on _ _ _ (ends_open 0 s Hs)). intros x Hx.
    replace (1 - x / s) with ((s - x) / s) by (field; lra).
    unfold Rdiv. rewrite <- !Rpower_mult_distr by (try lra; apply Rinv_0_lt_compat; lra).
    replace (a + b - 1) with (1 + (a - 1) + (b - 1)) by ring. rewrite !Rpower_plus, Rpower_1 by auto.
    assert (E : forall c, Rpower (/ s) c = / Rpower s c).
    { intros c. unfold Rpower. rewrite ln_Rinv by auto. rewrite <- exp_Ropp. f_equal. ring. }
    rewrite !E. assert (P : forall c, 0 < Rpower s c) by (intros; apply exp_pos).
    assert (P1 := P (a - 1)). assert (P2 := P (b - 1)). field. lra.
  - typeclasses eauto.
  - typeclasses eauto.
  - intros x Hx. split. apply Rdiv_lt_0_compat; lra. apply Rmult_lt_reg_r with s; auto. unfold Rdiv. rewrite Rmult_assoc, Rinv_l by lra. lra.
  - intros x Hx. auto_derive; auto. field. lra.
  - intros x Hx. apply continuous_const.
  - intros x Hx. apply cont_beta_integrand. auto.
  - intros P [d Hd]. assert (Hds : 0 < d * s) by (apply Rmult_lt_0_compat; auto; apply d).
    exists (mkposreal _ Hds). intros x Hx Hx0. apply Hd.
    + unfold ball in *; simpl in *. unfold AbsRing_ball, abs, minus, plus, opp in *; simpl in *.
      rewrite Ropp_0, Rplus_0_r in *. rewrite Rabs_pos_eq in * by (try lra; left; apply Rdiv_lt_0_compat; lra).
      apply Rmult_lt_reg_r with s; auto. unfold Rdiv. rewrite Rmult_assoc, Rinv_l by lra. lra.
    + apply Rdiv_lt_0_compat; lra.
  - intros P [d Hd]. assert (Hds : 0 < d * s) by (apply Rmult_lt_0_compat; auto; apply d).
    exists (mkposreal _ Hds). intros x Hx Hx0. apply Hd.
    + unfold ball in *; simpl in *. unfold AbsRing_ball, abs, minus, plus, opp in *; simpl in *.
      replace (x / s + - (1)) with ((x + - s) / s) by (field; lra).
      unfold Rdiv. rewrite Rabs_mult. rewrite (Rabs_pos_eq (/ s)) by (left; now apply Rinv_0_lt_compat).
      apply Rmult_lt_reg_r with s; auto. rewrite Rmult_assoc, Rinv_l by lra. lra.
    + apply Rmult_lt_reg_r with s; auto. unfold Rdiv. rewrite Rmult_assoc, Rinv_l by lra. lra.
Qed.

Lemma sumR_pos l : Forall (fun x => 0 < x) l -> l <> [] -> 0 < sumR l.
Proof.
  intros F. assert (0 <= sumR l) by (induction F; simpl; lra).
  destruct F; intros N; [congruence|]. simpl in *.
  assert (0 <= sumR l). { clear - F. induction F; simpl; lra. } lra.
Qed.
Lemma prodR_pos l : Forall (fun x => 0 < x) l -> 0 < prodR l.
Proof. induction 1; simpl. lra. now apply Rmult_lt_0_compat. Qed.
Lemma prod_Gamma_pos l : Forall (fun x => 0 < x) l -> 0 < prodR (map Gamma_fun l).
Proof. intros F. apply prodR_pos. apply Forall_map. eapply Forall_impl; [|exact F]. intros; now apply Gamma_fun_pos. Qed.

(** the Dirichlet integral *)
Lemma simplex_powers n : forall alpha s, length alpha = S n -> Forall (fun a => 0 < a) alpha -> 0 < s ->
  is_simplex_int n s (fun p => powers p (map (fun a => a - 1) alpha))
    (prodR (map Gamma_fun alpha) / Gamma_fun (sumR alpha) * Rpower s (sumR alpha - 1)).
Proof.
  induction n as [|n IH]; intros [|a alpha] s L F Hs; simpl in L; try lia; inversion F as [|? ? Ha Fl]; subst.
  - destruct alpha; [|simpl in L; lia]. simpl. unfold powers. simpl. rewrite Rplus_0_r.
    assert (0 < Gamma_fun a) by now apply Gamma_fun_pos. field. lra.
  - assert (Hl : alpha <> []) by (intros ->; simpl in L; lia).
    assert (HS : 0 < sumR alpha) by now apply sumR_pos.
    set (K := prodR (map Gamma_fun alpha) / Gamma_fun (sumR alpha)).
    exists (fun x => Rpower x (a - 1) * (K * Rpower (s - x) (sumR alpha - 1))). split.
    + intros x Hx. apply simplex_scal with (k := Rpower x (a - 1)) (f := fun p => powers p (map (fun a => a - 1) alpha)).
      apply IH; auto; lra.
    + pose proof (beta_scaled a (sumR alpha) s Ha HS Hs) as H.
      apply (is_RInt_gen_mult_l _ _ _ K) in H.
      replace (prodR (map Gamma_fun (a :: alpha)) / Gamma_fun (sumR (a :: alpha)) * Rpower s (sumR (a :: alpha) - 1))
        with (K * (Rpower s (a + sumR alpha - 1) * Beta_fun a (sumR alpha))).
      * revert H. apply (is_RInt_gen_ext_on _ _ _ (ends_open 0 s Hs)). intros x _. ring.
      * simpl. rewrite Beta_fun_Gamma by auto. unfold K.
        assert (0 < Gamma_fun (sumR alpha)) by now apply Gamma_fun_pos.
        assert (0 < Gamma_fun (a + sumR alpha)) by (apply Gamma_fun_pos; lra). field. lra.
Qed.

(** ** Likelihoods *)
Definition cpow (p : list R) (x : list nat) : R := prodR (map (fun q => fst q ^ snd q) (combine p x)).
Definition update (alpha : list R) (x : list nat) : list R := zip_with Rplus alpha (map INR x).

Lemma powers_update p alpha x : Forall (fun x => 0 < x) p -> length alpha = length p -> length x = length p ->
  powers p (map (fun a => a - 1) alpha) * cpow p x = powers p (map (fun a => a - 1) (update alpha x)).
Proof.
  intros F. revert alpha x. induction F as [|q p Hq F IH]; intros [|a alpha] [|k x] L L'; simpl in *; try lia.
  - unfold powers, cpow. simpl. ring.
  - unfold powers, cpow, update, zip_with in *. simpl. rewrite <- IH by lia.
    replace (a + INR k - 1) with ((a - 1) + INR k) by ring. rewrite Rpower_plus, Rpower_pow by auto. ring.
Qed.

Lemma update_pos alpha x : Forall (fun a => 0 < a) alpha -> Forall (fun a => 0 < a) (update alpha x).
Proof.
  intros F. revert x. induction F; intros [|k x']; simpl; constructor; simpl.
  - assert (0 <= INR k) by apply pos_INR. lra.
  - apply IHF.
Qed.
Lemma update_len alpha x : length alpha = length x -> length (update alpha x) = length alpha.
Proof. intros. unfold update. apply zip_len. now rewrite map_length. Qed.

Lemma dirichlet_bayes n alpha x K : length alpha = S n -> length x = S n -> Forall (fun a => 0 < a) alpha -> 0 < K ->
  simplex_posterior n (dirichlet_pdf alpha) (fun p => K * cpow p x) (dirichlet_pdf (update alpha x)).
Proof.
  intros L Lx F HK.
  assert (F' := update_pos alpha x F). assert (L' : length (update alpha x) = S n) by (rewrite update_len; lia).
  pose proof (simplex_powers n (update alpha x) 1 L' F' Rlt_0_1) as I.
  assert (N : alpha <> []) by (intros ->; simpl in L; lia). assert (N' : update alpha x <> []) by (intros E; rewrite E in L'; simpl in L'; lia).
  assert (G1 := prod_Gamma_pos alpha F). assert (G2 := prod_Gamma_pos _ F').
  assert (G3 : 0 < Gamma_fun (sumR alpha)) by (apply Gamma_fun_pos, sumR_pos; auto).
  assert (G4 : 0 < Gamma_fun (sumR (update alpha x))) by (apply Gamma_fun_pos, sumR_pos; auto).
  set (C := Gamma_fun (sumR alpha) / prodR (map Gamma_fun alpha) * K).
  assert (HC : 0 < C) by (unfold C; apply Rmult_lt_0_compat; auto; now apply Rdiv_lt_0_compat).
  assert (E : forall p, on_simplex n 1 p ->
     dirichlet_pdf alpha p * (K * cpow p x) = C * powers p (map (fun a => a - 1) (update alpha x))).
  { intros p (Lp & Fp & _). rewrite <- powers_update by (auto; lia). unfold dirichlet_pdf, C. ring. }
  apply (simplex_scal n 1 _ _ C) in I.
  assert (R1 : Rpower 1 (sumR (update alpha x) - 1) = 1) by (unfold Rpower; rewrite ln_1, Rmult_0_r; apply exp_0).
  rewrite R1, Rmult_1_r in I.
  eexists. split; [|split].
  2: apply (simplex_ext n 1 _ _ _ Rlt_0_1 (fun p H => eq_sym (E p H)) I).
  - apply Rmult_lt_0_compat; auto. now apply Rdiv_lt_0_compat.
  - intros p Hp. rewrite E by auto. unfold dirichlet_pdf. field. lra.
Qed.

Definition plusN := zip_with Nat.add.
Lemma cpow_plus p (x y : list nat) : length x = length p -> length y = length p -> cpow p (plusN x y) = cpow p x * cpow p y.
Proof.
  revert x y. induction p as [|q p IH]; intros [|k x] [|l y] L L'; simpl in *; try lia; unfold cpow, plusN, zip_with in *; simpl.
  - ring.
  - rewrite IH by lia. rewrite pow_add. ring.
Qed.
Lemma map_seq_nth {B} (l : list B) d : map (fun k => nth k l d) (seq 0 (length l)) = l.
Proof.
  induction l; simpl; auto. f_equal. rewrite <- seq_shift, map_map. exact IHl.
Qed.
Lemma plusN_map (f g : nat -> nat) l : plusN (map f l) (map g l) = map (fun k => (f k + g k)%nat) l.
Proof. unfold plusN, zip_with. induction l; simpl; f_equal; auto. Qed.
Lemma cpow_zero p m : cpow p (map (fun _ => 0%nat) (seq m (length p))) = 1.
Proof.
  revert m. induction p; intros m; unfold cpow in *; simpl; auto. rewrite IHp. ring.
Qed.

Lemma lik_multinomial n data p : length p = S n -> Forall (fun x => length x = S n) data ->
  likelihood multinomial_pmf data p = prodR (map multinomial_coef data) * cpow p (total n data).
Proof.
  intros L F. unfold likelihood, total. induction F as [|x data Hx F IH]; cbn [map prodR fold_right].
  - cbn [sumN fold_right]. rewrite <- L, cpow_zero. ring.
  - change (fold_right Rmult 1) with prodR. rewrite IH. cbn [sumN fold_right].
    rewrite <- (plusN_map (fun k => nth k x 0%nat) (fun k => sumN (map (fun x => nth k x 0%nat) data))).
    assert (Mx : map (fun k => nth k x 0%nat) (seq 0 (S n)) = x) by (rewrite <- Hx; apply map_seq_nth). rewrite Mx. rewrite cpow_plus.
    + unfold multinomial_pmf at 1. fold (cpow p x). ring.
    + lia.
    + now rewrite map_length, seq_length.
Qed.

Lemma cpow_indicator p k : (k < length p)%nat ->
  cpow p (map (fun j => if Nat.eq_dec k j then 1%nat else 0%nat) (seq 0 (length p))) = nth k p 0.
Proof.
  assert (G : forall p m k, (k < length p)%nat ->
    cpow p (map (fun j => if Nat.eq_dec (m + k) j then 1%nat else 0%nat) (seq m (length p))) = nth k p 0).
  { clear. induction p as [|q p IH]; intros m [|k] H; simpl in H; try lia; simpl; unfold cpow; simpl.
    - destruct (Nat.eq_dec (m + 0) m); [|lia].
      rewrite (map_ext_in _ (fun _ => 0%nat)). rewrite <- (Rmult_1_r q) at 2. simpl. fold (cpow p (map (fun _ => 0%nat) (seq (S m) (length p)))). rewrite cpow_zero. ring.
      intros j Hj. apply in_seq in Hj. destruct (Nat.eq_dec (m + 0) j); lia.
    - destruct (Nat.eq_dec (m + S k) m); [lia|].
      rewrite (map_ext_in _ (fun j => if Nat.eq_dec (S m + k) j then 1%nat else 0%nat)). fold (cpow p (map (fun j => if Nat.eq_dec (S m + k) j then 1%nat else 0%nat) (seq (S m) (length p)))).
      rewrite IH by lia. simpl. ring.
      intros j Hj. destruct (Nat.eq_dec (m + S k) j), (Nat.eq_dec (S m + k) j); lia. }
  intros H. apply (G p 0%nat k H).
Qed.

Lemma lik_categorical n obs p : length p = S n -> Forall (fun k => (k <= n)%nat) obs ->
  likelihood categorical_pmf obs p = cpow p (counts n obs).
Proof.
  intros L F. unfold likelihood, counts. induction F as [|k obs Hk F IH]; cbn [map prodR fold_right].
  - simpl count_occ. rewrite <- L, cpow_zero. reflexivity.
  - change (fold_right Rmult 1) with prodR. rewrite IH.
    rewrite (map_ext (fun j => count_occ Nat.eq_dec (k :: obs) j)
             (fun j => ((if Nat.eq_dec k j then 1 else 0) + count_occ Nat.eq_dec obs j)%nat)).
    2:{ intros j. simpl. destruct (Nat.eq_dec k j); auto. }
    rewrite <- plusN_map, cpow_plus by now rewrite map_length, seq_length.
    f_equal. rewrite <- L. rewrite cpow_indicator by lia. reflexivity.
Qed.

Lemma coef_pos x : 0 < multinomial_coef x.
Proof.
  unfold multinomial_coef. apply Rdiv_lt_0_compat. apply INR_fact_lt_0. apply prodR_pos. apply Forall_map, Forall_forall. intros; apply INR_fact_lt_0.
Qed.

Lemma simplex_posterior_ext n prior lik lik' post : (forall p, on_simplex n 1 p -> lik p = lik' p) ->
  simplex_posterior n prior lik post -> simplex_posterior n prior lik' post.
Proof.
  intros E (ev & H1 & H2 & H3). exists ev. split; auto. split.
  - revert H2. apply simplex_ext. lra. intros p Hp. now rewrite E.
  - intros p Hp. now rewrite <- E; auto.
Qed.

Lemma multinomial_bayes n (c cx : container R) alpha data :
  length alpha = S n -> Forall (fun a => 0 < a) alpha -> Forall (fun x => length x = S n) data ->
  holds c alpha -> holds cx (map INR (total n data)) -> ~ concatenates c cx ->
  exists out alpha', multinomial_dirichlet cx c = Ok (mkDirichlet (OVal out)) /\ holds out alpha' /\
    length alpha' = S n /\ Forall (fun a => 0 < a) alpha' /\
    simplex_posterior n (dirichlet_pdf alpha) (likelihood multinomial_pmf data) (dirichlet_pdf alpha').
Proof.
  intros L F D H Hx N.
  assert (Lt : length (total n data) = S n) by (unfold total; now rewrite map_length, seq_length).
  destruct (params_elementwise c cx alpha (map INR (total n data)) H Hx) as (out & E & Ho & _); auto.
  { rewrite map_length. lia. }
  exists out, (update alpha (total n data)). unfold multinomial_dirichlet. rewrite E. split; auto. split; [exact Ho|].
  split; [rewrite update_len; lia|]. split; [now apply update_pos|].
  apply simplex_posterior_ext with (fun p => prodR (map multinomial_coef data) * cpow p (total n data)).
  - intros p (Lp & _). symmetry. now apply lik_multinomial.
  - apply dirichlet_bayes; auto. apply prodR_pos, Forall_map, Forall_forall. intros; apply coef_pos.
Qed.

Lemma categorical_bayes n (c cx : container R) alpha obs :
  length alpha = S n -> Forall (fun a => 0 < a) alpha -> Forall (fun k => (k <= n)%nat) obs ->
  holds c alpha -> holds cx (map INR (counts n obs)) -> ~ concatenates c cx ->
  exists out alpha', categorical_dirichlet cx c = Ok (mkDirichlet (OVal out)) /\ holds out alpha' /\
    length alpha' = S n /\ Forall (fun a => 0 < a) alpha' /\
    simplex_posterior n (dirichlet_pdf alpha) (likelihood categorical_pmf obs) (dirichlet_pdf alpha').
Proof.
  intros L F D H Hx N.
  assert (Lt : length (counts n obs) = S n) by (unfold counts; now rewrite map_length, seq_length).
  destruct (params_elementwise c cx alpha (map INR (counts n obs)) H Hx) as (out & E & Ho & _); auto.
  { rewrite map_length. lia. }
  exists out, (update alpha (counts n obs)). unfold categorical_dirichlet. rewrite E. split; auto. split; [exact Ho|].
  split; [rewrite update_len; lia|]. split; [now apply update_pos|].
  apply simplex_posterior_ext with (fun p => 1 * cpow p (counts n obs)).
  - intros p (Lp & _). rewrite Rmult_1_l. symmetry. now apply lik_categorical.
  - apply dirichlet_bayes; auto. lra.
Qed.

(** the Dirichlet density integrates to one *)
Lemma dirichlet_total n alpha : length alpha = S n -> Forall (fun a => 0 < a) alpha -> is_simplex_int n 1 (dirichlet_pdf alpha) 1.
Proof.
  intros L F. pose proof (simplex_powers n alpha 1 L F Rlt_0_1) as I.
  apply (simplex_scal n 1 _ _ (Gamma_fun (sumR alpha) / prodR (map Gamma_fun alpha))) in I.
  assert (N : alpha <> []) by (intros ->; simpl in L; lia).
  assert (G1 := prod_Gamma_pos alpha F). assert (G3 : 0 < Gamma_fun (sumR alpha)) by (apply Gamma_fun_pos, sumR_pos; auto).
  assert (R1 : Rpower 1 (sumR alpha - 1) = 1) by (unfold Rpower; rewrite ln_1, Rmult_0_r; apply exp_0).
  rewrite R1 in I. match type of I with is_simplex_int _ _ _ ?v => replace v with 1 in I by (field; lra) end. exact I.
Qed.

Lemma sum_update alpha x : length alpha = length x -> sumR (update alpha x) = sumR alpha + INR (sumN x).
Proof.
  revert x. induction alpha as [|a alpha IH]; intros [|k x] L; simpl in L; try lia.
  - simpl. ring.
  - change (a + INR k + sumR (update alpha x) = a + sumR alpha + INR (k + sumN x)). rewrite plus_INR, IH by lia. ring.
Qed.

(** predictive *)
Lemma dm_marginal n alpha (x : list nat) : length alpha = S n -> length x = S n -> Forall (fun a => 0 < a) alpha ->
  is_simplex_int n 1 (fun p => multinomial_pmf p x * dirichlet_pdf alpha p) (dirichlet_multinomial_pmf alpha (sumN x) x).
Proof.
  intros L Lx F.
  assert (F' := update_pos alpha x F). assert (L' : length (update alpha x) = S n) by (rewrite update_len; lia).
  pose proof (simplex_powers n (update alpha x) 1 L' F' Rlt_0_1) as I.
  assert (N : alpha <> []) by (intros ->; simpl in L; lia). assert (N' : update alpha x <> []) by (intros E; rewrite E in L'; simpl in L'; lia).
  assert (G1 := prod_Gamma_pos alpha F). assert (G2 := prod_Gamma_pos _ F').
  assert (G3 : 0 < Gamma_fun (sumR alpha)) by (apply Gamma_fun_pos, sumR_pos; auto).
  assert (G4 : 0 < Gamma_fun (sumR (update alpha x))) by (apply Gamma_fun_pos, sumR_pos; auto).
  apply (simplex_scal n 1 _ _ (Gamma_fun (sumR alpha) / prodR (map Gamma_fun alpha) * multinomial_coef x)) in I.
  assert (R1 : Rpower 1 (sumR (update alpha x) - 1) = 1) by (unfold Rpower; rewrite ln_1, Rmult_0_r; apply exp_0).
  rewrite R1, Rmult_1_r in I.
  match type of I with is_simplex_int _ _ _ ?v => replace v with (dirichlet_multinomial_pmf alpha (sumN x) x) in I end.
  - revert I. apply simplex_ext. lra. intros p (Lp & Fp & _). rewrite <- powers_update by (auto; lia).
    unfold dirichlet_pdf, multinomial_pmf. fold (cpow p x). ring.
  - unfold dirichlet_multinomial_pmf. rewrite Nat.eqb_refl, Gamma_fun_fact.
    rewrite sum_update in * by lia. rewrite (Rplus_comm (INR (sumN x)) (sumR alpha)). unfold multinomial_coef.
    assert (P : prodR (map (fun q => Gamma_fun (INR (snd q) + fst q) / (Gamma_fun (fst q) * Gamma_fun (INR (snd q) + 1))) (combine alpha x))
      = prodR (map Gamma_fun (update alpha x)) / (prodR (map Gamma_fun alpha) * prodR (map (fun k => INR (fact k)) x))).
    { clear - L Lx F. assert (E : length alpha = length x) by lia. clear L Lx. revert x E.
      induction F as [|a alpha Ha F IH]; intros [|k x] E; simpl in E; try lia; unfold update, zip_with in *; simpl. field.
      change (fold_right Rmult 1) with prodR in *. rewrite IH by lia. rewrite Gamma_fun_fact, (Rplus_comm (INR k) a).
      assert (0 < Gamma_fun a) by now apply Gamma_fun_pos. assert (G := prod_Gamma_pos alpha F).
      assert (0 < INR (fact k)) by apply INR_fact_lt_0.
      assert (0 < prodR (map (fun k => INR (fact k)) x)) by (apply prodR_pos, Forall_map, Forall_forall; intros; apply INR_fact_lt_0).
      field. lra. }
    rewrite P.
    assert (0 < prodR (map (fun k => INR (fact k)) x)) by (apply prodR_pos, Forall_map, Forall_forall; intros; apply INR_fact_lt_0).
    field. lra.
Qed.

(** ** The predictive masses add up to one *)
Lemma sumR_app l l' : sumR (l ++ l') = sumR l + sumR l'.
Proof. unfold sumR. induction l; simpl; lra. Qed.
Lemma sumR_flat {B C} (f : C -> R) (g : B -> list C) l : sumR (map f (flat_map g l)) = sumR (map (fun b => sumR (map f (g b))) l).
Proof. induction l; simpl; auto. rewrite map_app. change (fold_right Rplus 0) with sumR in *. rewrite <- IHl. apply sumR_app. Qed.
Lemma sumR_scal {B} (f : B -> R) c l : sumR (map (fun b => c * f b) l) = c * sumR (map f l).
Proof. unfold sumR. induction l; simpl; lra. Qed.
Lemma sumR_sum_f f n : sumR (map f (seq 0 (S n))) = sum_f_R0 f n.
Proof. induction n. simpl. ring. rewrite seq_S, map_app, sumR_app, IHn. simpl. ring. Qed.

Definition term (alpha : list R) (x : list nat) : R := prodR (zip_with (fun a k => rising a k / INR (fact k)) alpha x).

Lemma compositions_sum alpha : forall n, sumR (map (term alpha) (compositions (length alpha) n)) =
  match alpha with [] => match n with O => 1 | _ => 0 end | _ => rising (sumR alpha) n / INR (fact n) end.
Proof.
  induction alpha as [|a alpha IH]; intros n.
  - destruct n; unfold term; simpl; lra.
  - cbn [length compositions]. rewrite sumR_flat.
    assert (E : forall k, sumR (map (term (a :: alpha)) (map (cons k) (compositions (length alpha) (n - k)))) =
      rising a k / INR (fact k) * sumR (map (term alpha) (compositions (length alpha) (n - k)))).
    { intros k. rewrite map_map. rewrite <- sumR_scal. f_equal. }
    rewrite (map_ext _ _ E). rewrite sumR_sum_f.
    destruct alpha as [|b alpha].
    + destruct n as [|n]. simpl. unfold term; simpl. field.
      rewrite tech5. rewrite (sum_eq _ (fun _ => 0 * 0)).
      * rewrite <- scal_sum, Nat.sub_diag. cbn [sumR fold_right]. rewrite Rplus_0_r. rewrite IH. ring.
      * intros i Hi. rewrite IH. replace (S n - i)%nat with (S (n - i)) by lia. ring.
    + change (sumR (a :: b :: alpha)) with (a + sumR (b :: alpha)). rewrite <- Arith.rising_vandermonde.
      apply sum_eq. intros i Hi. now rewrite IH.
Qed.

Lemma compositions_in m n x : In x (compositions m n) <-> length x = m /\ sumN x = n.
Proof.
  revert n x. induction m as [|m IH]; intros n x; cbn [compositions].
  - destruct n; simpl; split.
    + intros [<-|[]]. auto.
    + intros [L _]. destruct x; auto; discriminate.
    + contradiction.
    + intros [L S]. destruct x; discriminate.
  - rewrite in_flat_map. split.
    + intros (k & Hk & H). apply in_map_iff in H. destruct H as (y & <- & Hy). apply IH in Hy. apply in_seq in Hk. simpl.
      change (fold_right Nat.add 0%nat y) with (sumN y). lia.
    + intros [L S]. destruct x as [|k x]; [discriminate|]. simpl in L, S. change (fold_right Nat.add 0%nat x) with (sumN x) in S.
      exists k. split. apply in_seq. lia. apply in_map. apply IH. lia.
Qed.

Lemma dm_total alpha n : alpha <> [] -> Forall (fun a => 0 < a) alpha ->
  sumR (map (dirichlet_multinomial_pmf alpha n) (compositions (length alpha) n)) = 1.
Proof.
  intros N F.
  assert (HS : 0 < sumR alpha) by now apply sumR_pos.
  assert (HR := Pdfs.rising_pos (sumR alpha) n HS). assert (HG : 0 < Gamma_fun (sumR alpha)) by now apply Gamma_fun_pos.
  assert (Hf : 0 < INR (fact n)) by apply INR_fact_lt_0.
  rewrite (map_ext_in _ (fun x => (INR (fact n) / rising (sumR alpha) n) * term alpha x)).
  - rewrite sumR_scal, compositions_sum. destruct alpha; [congruence|]. field. lra.
  - intros x Hx. apply compositions_in in Hx. destruct Hx as [L S]. unfold dirichlet_multinomial_pmf. rewrite S, Nat.eqb_refl, Gamma_fun_fact.
    rewrite (Rplus_comm (INR n)), Gamma_fun_rising by auto. f_equal. field. lra.
    unfold term, zip_with. f_equal. apply map_ext_in. intros [a k] Hq. simpl.
    assert (Ha : 0 < a) by (rewrite Forall_forall in F; apply F; eapply in_combine_l; eauto).
    rewrite Gamma_fun_fact, (Rplus_comm (INR k)), Gamma_fun_rising by auto.
    assert (0 < Gamma_fun a) by now apply Gamma_fun_pos. assert (0 < INR (fact k)) by apply INR_fact_lt_0. field. lra.
Qed.

(** one-at-a-time updating of an array prior *)
Lemma dirichlet_sequential {A} {NA : Num A} (a : nd A) (x y : container A) la lx ly :
  (forall u v w, nadd (nadd u v) w = nadd u (nadd v w)) ->
  holds (CArr a) la -> holds x lx -> holds y ly -> length la = length lx -> length la = length ly ->
  exists a1 a2, multinomial_dirichlet x (CArr a) = Ok (mkDirichlet (OVal (CArr a1))) /\
    multinomial_dirichlet y (CArr a1) = Ok (mkDirichlet (OVal (CArr a2))) /\
    forall z, holds z (zip_with nadd lx ly) -> exists a3, multinomial_dirichlet z (CArr a) = Ok (mkDirichlet (OVal (CArr a3))) /\
      nd_shape a2 = nd_shape a3 /\ forall i, (i < length la)%nat -> nd_entry a2 [i] = nd_entry a3 [i].
Proof.
  intros As Ha Hx Hy Lx Ly.
  assert (NC : forall (b : nd A) (c : container A), ~ concatenates (CArr b) c) by (intros b c; destruct c; simpl; tauto).
  destruct (params_elementwise (CArr a) x la lx Ha Hx Lx (NC _ _)) as (o1 & E1 & H1 & [_ K1]).
  destruct (K1 (or_introl (ex_intro _ a eq_refl))) as (a1 & ->).
  assert (L1 : length (zip_with nadd la lx) = length la) by now apply zip_len.
  destruct (params_elementwise (CArr a1) y (zip_with nadd la lx) ly H1 Hy ltac:(lia) (NC _ _)) as (o2 & E2 & H2 & [_ K2]).
  destruct (K2 (or_introl (ex_intro _ a1 eq_refl))) as (a2 & ->).
  exists a1, a2. unfold multinomial_dirichlet. rewrite E1, E2. split; auto. split; auto. intros z Hz.
  assert (Lz : length (zip_with nadd lx ly) = length lx) by (apply zip_len; lia).
  destruct (params_elementwise (CArr a) z la _ Ha Hz ltac:(lia) (NC _ _)) as (o3 & E3 & H3 & [_ K3]).
  destruct (K3 (or_introl (ex_intro _ a eq_refl))) as (a3 & ->).
  exists a3. rewrite E3. split; auto. destruct H2 as [S2 V2], H3 as [S3 V3].
  assert (L2 : length (zip_with nadd (zip_with nadd la lx) ly) = length la) by (rewrite zip_len; lia).
  assert (L3 : length (zip_with nadd la (zip_with nadd lx ly)) = length la) by (rewrite zip_len; lia).
  split; [congruence|]. intros i Hi. destruct la as [|d0 la']; [simpl in Hi; lia|].
  rewrite (V2 i d0), (V3 i d0) by lia. set (la := d0 :: la') in *.
  rewrite (nth_zip nadd _ ly i d0 d0 d0), (nth_zip nadd la lx i d0 d0 d0), (nth_zip nadd la _ i d0 d0 d0), (nth_zip nadd lx ly i d0 d0 d0) by lia.
  apply As.
Qed.

(** one trial: the probability of category k is alpha_k / sum alpha *)
Lemma term_indicator alpha : forall m k, (k < length alpha)%nat ->
  term alpha (map (fun j => if Nat.eqb (m + k) j then 1%nat else 0%nat) (seq m (length alpha))) = nth k alpha 0.
Proof.
  assert (Z : forall alpha m, term alpha (map (fun _ => 0%nat) (seq m (length alpha))) = 1).
  { induction alpha0; intros m; unfold term, zip_with in *; simpl; auto. rewrite IHalpha0. field. }
  induction alpha as [|a alpha IH]; intros m [|k] H; simpl in H; try lia; cbn [length seq map nth]; unfold term, zip_with; cbn [combine map fst snd].
  - rewrite Nat.add_0_r, Nat.eqb_refl. rewrite (map_ext_in _ (fun _ => 0%nat)).
    specialize (Z alpha (S m)). unfold term, zip_with in Z. unfold prodR in *. cbn [fold_right]. rewrite Z. simpl. field.
    intros j Hj. apply in_seq in Hj. destruct (Nat.eqb_spec m j); lia.
  - destruct (Nat.eqb_spec (m + S k) m); [lia|].
    rewrite (map_ext (fun j => if Nat.eqb (m + S k) j then 1%nat else 0%nat) (fun j => if Nat.eqb (S m + k) j then 1%nat else 0%nat)).
    specialize (IH (S m) k ltac:(lia)). unfold term, zip_with in IH. unfold prodR in *. cbn [fold_right]. rewrite IH. simpl. field.
    intros j. now replace (m + S k)%nat with (S m + k)%nat by lia.
Qed.

Lemma dm_term alpha n x : length x = length alpha -> sumN x = n -> Forall (fun a => 0 < a) alpha -> alpha <> [] ->
  dirichlet_multinomial_pmf alpha n x = INR (fact n) / rising (sumR alpha) n * term alpha x.
Proof.
  intros L S F N.
  assert (HS : 0 < sumR alpha) by now apply sumR_pos.
  assert (HR := Pdfs.rising_pos (sumR alpha) n HS). assert (HG : 0 < Gamma_fun (sumR alpha)) by now apply Gamma_fun_pos.
  unfold dirichlet_multinomial_pmf. rewrite S, Nat.eqb_refl, Gamma_fun_fact.
  rewrite (Rplus_comm (INR n)), Gamma_fun_rising by auto. f_equal. field. lra.
  unfold term, zip_with. f_equal. apply map_ext_in. intros [a k] Hq. simpl.
  assert (Ha : 0 < a) by (rewrite Forall_forall in F; apply F; eapply in_combine_l; eauto).
  rewrite Gamma_fun_fact, (Rplus_comm (INR k)), Gamma_fun_rising by auto.
  assert (0 < Gamma_fun a) by now apply Gamma_fun_pos. assert (0 < INR (fact k)) by apply INR_fact_lt_0. field. lra.
Qed.

Lemma dm_one n alpha k : length alpha = S n -> (k <= n)%nat -> Forall (fun a => 0 < a) alpha ->
  dirichlet_multinomial_pmf alpha 1 (map (fun j => if Nat.eqb k j then 1%nat else 0%nat) (seq 0 (S n))) = nth k alpha 0 / sumR alpha.
Proof.
  intros L Hk F. assert (N : alpha <> []) by (intros ->; simpl in L; lia).
  rewrite dm_term; auto.
  - rewrite <- L. pose proof (term_indicator alpha 0 k ltac:(lia)) as T. simpl in T. rewrite T. simpl.
    assert (HS : 0 < sumR alpha) by now apply sumR_pos. field. lra.
  - now rewrite map_length, seq_length.
  - assert (G : forall l m, (m <= k < m + l)%nat -> sumN (map (fun j => if Nat.eqb k j then 1%nat else 0%nat) (seq m l)) = 1%nat).
    { assert (Z : forall l m, (k < m)%nat -> sumN (map (fun j => if Nat.eqb k j then 1%nat else 0%nat) (seq m l)) = 0%nat).
      { induction l; intros m H; simpl; auto. destruct (Nat.eqb_spec k m); [lia|]. change (fold_right Nat.add 0%nat) with sumN. rewrite IHl; lia. }
      induction l; intros m H; [lia|]. simpl. change (fold_right Nat.add 0%nat) with sumN. destruct (Nat.eqb_spec k m).
      subst. rewrite Z; lia. rewrite IHl; lia. }
    apply G. lia.
Qed.

Lemma dist_needs_array {A} (d : Dirichlet A) :
  (exists r, Dirichlet_dist d = Ok r) <-> (exists a, Dirichlet_alpha d = OVal (CArr a)).
Proof.
  destruct d as [[[a|l|l|a]|l]]; unfold Dirichlet_dist; cbn [Dirichlet_alpha]; split; intros [r H]; try discriminate; eauto.
  destruct (Nat.eqb (length (nd_shape a)) 1); eauto.
Qed.

(** C38: Dirichlet.uninformative is the uniform distribution on the simplex *)
Lemma sumR_ones n : sumR (repeat 1 n) = INR n.
Proof. induction n; [reflexivity|]. rewrite S_INR. simpl repeat. unfold sumR in *. simpl. rewrite IHn. lra. Qed.
Lemma powers_ones p : forall n, length p = n -> Forall (fun x => 0 < x) p -> powers p (map (fun a => a - 1) (repeat 1 n)) = 1.
Proof.
  induction p as [|x p IH]; intros [|n] L F; try discriminate; [reflexivity|]. inversion F; subst.
  unfold powers in *. simpl. change (fold_right Rmult 1) with prodR. rewrite IH by (auto; now injection L).
  replace (1 - 1) with 0 by lra. rewrite Rpower_O by auto. lra.
Qed.
Lemma uninformative_uniform n : exists a alpha, Dirichlet_dist (Dirichlet_uninformative (S n)) = Ok (One a) /\
  holds (CArr a) alpha /\ length alpha = S n /\ Forall (fun a => 0 < a) alpha /\
  forall p, on_simplex n 1 p -> dirichlet_pdf alpha p = INR (fact n).
Proof.
  exists (mkNd [S n] (fun _ => 1)), (repeat 1 (S n)). split; [reflexivity|]. split.
  { split; [now rewrite repeat_length|]. intros i d H. rewrite repeat_length in H. cbn [nd_entry]. symmetry.
    apply (repeat_spec (S n) 1). apply nth_In. now rewrite repeat_length. }
  split; [apply repeat_length|]. split. { apply Forall_forall. intros x Hx. apply repeat_spec in Hx. subst. lra. }
  intros p (L & F & _). unfold dirichlet_pdf. rewrite powers_ones by auto. rewrite sumR_ones, S_INR, Gamma_fun_fact.
  assert (E : forall m, prodR (map Gamma_fun (repeat 1 m)) = 1).
  { induction m; [reflexivity|]. simpl. change (fold_right Rmult 1) with prodR. rewrite IHm.
    replace 1 with (INR 0 + 1) at 1 by (simpl; lra). rewrite Gamma_fun_fact. simpl. lra. }
  rewrite E. field.
Qed.
