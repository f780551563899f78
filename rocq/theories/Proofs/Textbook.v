(** C62: the distribution of a member has the textbook density in its parameters. *)

From Coq Require Import ZArith Reals Lra Lia Bool String.
From Coquelicot Require Import Coquelicot.
From Verif Require Import Model.Num Model.Py Model.Dists Model.ScipyDist Model.NdArray Model.SliceModel Model.PlotModel Model.Draw.
From Verif Require Import Spec.Special Spec.Densities Spec.Indexing Spec.Plotting Spec.Drawing Spec.Textbook.
From Verif Require Import Proofs.Convert Proofs.Predictive Proofs.Normalised Proofs.Draw.
From Coq Require Import List.
Import ListNotations.
Open Scope R_scope.

Definition getter (fields : list (string * param R)) (j : nat) (name : string) : res R :=
  let* v := get_field fields name in match member 0 j v with Some r => Ok r | None => Raise (TypeError "flag") end.
Lemma get_field_In fields name v : get_field fields name = Ok v -> In (name, v) fields.
Proof.
  unfold get_field. destruct (find _ fields) as [[n w]|] eqn:E; [|discriminate]. intros H. injection H as <-.
  apply find_some in E. destruct E as [E1 E2]. apply String.eqb_eq in E2. cbn [fst snd] in *. now subst.
Qed.
Lemma getter_value fields j p b name r : parameters fields j p b -> getter fields j name = Ok r -> r = p name.
Proof.
  intros P H. unfold getter in H. destruct (get_field fields name) as [v|] eqn:E; [|discriminate]. cbn [bind] in H.
  apply get_field_In, P in E. destruct v as [a|l|f]; cbn [member] in *; [| |discriminate]; injection H as <-; now injection E.
Qed.
Lemma flag_value fields j p b name r : parameters fields j p b -> flag_field fields name = Ok r -> r = b name.
Proof.
  intros P H. unfold flag_field in H. destruct (get_field fields name) as [v|] eqn:E; [|discriminate]. cbn [bind] in H.
  apply get_field_In, P in E. destruct v; try discriminate. injection H as <-. now symmetry.
Qed.

(** the fields a dist property reads *)
Ltac read_fields P H :=
  repeat match type of H with
  | bind ?r _ = Ok _ => let E := fresh "E" in destruct r eqn:E; [|discriminate H]; cbn [bind] in H;
      first [apply (getter_value _ _ _ _ _ _ P) in E | apply (flag_value _ _ _ _ _ _ P) in E]; subst
  end.
Ltac by_class P H :=
  match type of H with member_dist ?release ?c ?fields ?j = _ =>
    unfold member_dist in H; fold (getter fields j) in H;
    change (fun name => let* v := get_field fields name in match member 0 j v with Some r => Ok r | None => Raise (TypeError "flag") end)
      with (getter fields j) in H
  end;
  match goal with EN : _ = pc_name _ |- _ => rewrite <- EN in H; clear EN end;
  unfold class_dist in H; cbn [dist_properties find fst snd String.eqb Ascii.eqb Bool.eqb] in H;
  unfold dist1, dist2, dist3 in H; read_fields P H;
  try (unfold BetaNegativeBinomial_dist in H; match type of H with (if ?t then _ else _) = _ => destruct t; [discriminate H|] end);
  injection H as <-.

Lemma member_density release c fields j p b d row x : parameters fields j p b ->
  member_dist release c fields j = Ok d -> In row continuous_table -> d_class row = pc_name c -> d_valid row p x ->
  pdf d x = d_value row p x.
Proof.
  intros P H I EN V. unfold continuous_table in I. cbn [In] in I.
  repeat (destruct I as [<-|I]; [cbn [d_class d_valid d_value] in *; by_class P H|]); [..|contradiction].
  - now rewrite Convert.beta_density.
  - now rewrite Convert.gamma_density.
  - now rewrite Convert.invgamma_density.
  - now rewrite Convert.sics_density.
  - now rewrite Convert.normal_density.
  - destruct V as [V1 V2]. rewrite Convert.pareto_density by auto. cbn [Pareto_x_m Pareto_alpha].
    destruct (Rle_dec (p "x_m"%string) x); [reflexivity|contradiction].
  - now rewrite Convert.student_t_density.
  - now rewrite Convert.lomax_density.
  - destruct V as [V1 V2]. unfold CompoundGamma_dist. cbn [CompoundGamma_alpha CompoundGamma_beta CompoundGamma_lam].
    unfold pdf, compound_gamma_pdf. cbn [npow nlit NumR nadd nsub nmul ndiv].
    assert (0 < x / p "lam"%string) by now apply Rdiv_lt_0_compat.
    replace (0 - p "alpha"%string - p "beta"%string) with (- (p "alpha"%string + p "beta"%string)) by ring. reflexivity.
  - now rewrite Convert.weibull_density.
  - now rewrite Convert.von_mises_density.
  - now rewrite Exponential_dist_is_scale.
  - destruct V as [V1 [V2 V3]]. rewrite Uniform_dist_support by auto. cbn [Uniform_low Uniform_high].
    destruct (Rle_dec (p "low"%string) x); [|contradiction].
    destruct (Rle_dec x (p "low"%string + p "high"%string)); [reflexivity|contradiction].
  - destruct V as [V1 V2]. unfold LogNormal_dist. cbn [LogNormal_mu LogNormal_sigma]. unfold pdf, locscale, std_lognorm, Rif, ltb.
    replace ((x - p "mu"%string) / 1) with (x - p "mu"%string) by field.
    destruct (Rlt_dec 0 (x - p "mu"%string)); [field; repeat split; try lra|lra].
    apply Rgt_not_eq, sqrt_lt_R0. pose proof PI_RGT_0. lra.
Qed.

Lemma member_mass release c fields j p b d row k : parameters fields j p b ->
  member_dist release c fields j = Ok d -> In row discrete_table -> m_class row = pc_name c ->
  m_is row p b k (pmf d (Z.of_nat k)).
Proof.
  intros P H I EN. unfold discrete_table in I. cbn [In] in I.
  repeat (destruct I as [<-|I]; [cbn [m_class m_is] in *; by_class P H|]); [..|contradiction].
  - intros n -> L. now apply binomial_mass.
  - apply poisson_mass.
  - intros L. now apply negative_binomial_mass.
  - intros N K n -> -> -> L1 L2 L3 L4. now apply hypergeometric_mass.
  - intros n -> L. now apply betabinom_pmf.
  - apply betanbinom_pmf.
  - intros f ->. apply geometric_mass.
  - intros f ->. unfold BetaGeometric_dist. cbn [BetaGeometric_alpha BetaGeometric_beta BetaGeometric_one_start].
    unfold pmf, beta_geometric_pmf. cbn [nlit NumR nadd ndiv]. rewrite <- INR_IZR_INZ.
    destruct (b "one_start"%string); rewrite ?Nat.add_0_r, !plus_INR; simpl (INR 1); reflexivity.
Qed.

(** C63: lists that have no arithmetic *)
Lemma object_dist_list release m o name l : any_family m (o_class o) (o_fields o) -> In (name, PList l) (o_fields o) ->
  In (pc_name (o_class o), name) raising_fields ->
  exists e, object_dist release o = Raise (TypeError e).
Proof.
  destruct o as [[cname k b] fields lo hi]. intros (ks & I & F) IL R. cbn [o_class o_fields pc_name] in *.
  unfold object_dist. cbn [o_class o_fields pc_name]. unfold raising_fields in R. cbn [In] in R.
  repeat (destruct R as [R|R]; [injection R as <- <-|]); [..|contradiction].
  all: unfold dataclass_fields in I; cbn [In] in I.
  all: repeat (destruct I as [I|I]; [try discriminate; injection I as <-|]); try contradiction.
  all: repeat match goal with
    | F : Forall2 _ _ (_ :: _) |- _ => let p := fresh "p" in let H := fresh "H" in let F' := fresh "F" in
        inversion F as [|p ? ? ? H F']; subst; clear F; destruct p as [? ?]; cbn [fst snd] in H; destruct H as [-> H]
    | F : Forall2 _ _ [] |- _ => inversion F; subst; clear F
    end.
  all: unfold class_dist; cbn [dist_properties find fst snd String.eqb Ascii.eqb Bool.eqb].
  all: unfold dist1, dist2, dist3, array_field, get_field; cbn [find fst snd String.eqb Ascii.eqb Bool.eqb bind].
  all: cbn [In] in IL; repeat (destruct IL as [IL|IL]; [try discriminate; injection IL as ->|]); try contradiction.
  all: repeat match goal with H : vector_of _ ?v /\ _ |- _ => destruct v as [?|?|?]; [clear H|clear H|now elim (proj2 H _ eq_refl)] end.
  all: cbn [rmap bind existsb computed_fields fst snd String.eqb Ascii.eqb Bool.eqb andb orb].
  all: eexists; reflexivity.
Qed.

Lemma draw_list release is_float show f m o cdf conditional polar mark st g name l :
  any_family m (o_class o) (o_fields o) -> In (name, PList l) (o_fields o) -> In (pc_name (o_class o), name) raising_fields ->
  snd (plot o) = Ok g ->
  exists e, snd (draw release is_float show f o cdf conditional polar mark st) = Raise (TypeError e).
Proof.
  intros Fam IL R EG. destruct (plot_same o) as [EC EF]. pose proof (plot_bounds o g EG) as PB.
  destruct (object_dist_list release m (fst (plot o)) name l) as [e E]; rewrite ?EC, ?EF; auto.
  exists e. unfold draw. destruct (plot o) as [o' gr]. cbn [fst snd] in *. subst gr. cbn [bind].
  assert (EV : curve_values release is_float f o' cdf g = Raise (TypeError e)) by (unfold curve_values; now rewrite E).
  destruct (pc_kind (o_class o)).
  - unfold continuous_calls. now rewrite EV.
  - destruct (PB eq_refl) as (lo & hi & -> & ->). unfold discrete_calls. now rewrite EV.
Qed.

Lemma tables_covered c : In c plot_classes ->
  match pc_kind c with
  | Continuous => exists row, In row continuous_table /\ d_class row = pc_name c
  | Discrete => exists row, In row discrete_table /\ m_class row = pc_name c
  end.
Proof.
  assert (B : forallb (fun c => match pc_kind c with
    | Continuous => existsb (fun row => String.eqb (d_class row) (pc_name c)) continuous_table
    | Discrete => existsb (fun row => String.eqb (m_class row) (pc_name c)) discrete_table end) plot_classes = true) by reflexivity.
  rewrite forallb_forall in B. intros H. specialize (B c H).
  destruct (pc_kind c); apply existsb_exists in B; destruct B as (row & I & E); apply String.eqb_eq in E; eauto.
Qed.
