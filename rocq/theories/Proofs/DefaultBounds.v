(** C65: the bounds set by the constructors. *)

From Coq Require Import ZArith Reals Lra Lia Bool String.
From Coquelicot Require Import Coquelicot.
From Verif Require Import Model.Num Model.Py Model.Dists Model.ScipyDist Model.NdArray Model.SliceModel Model.PlotModel Model.Draw.
From Verif Require Import Spec.Special Spec.Densities Spec.Indexing Spec.Plotting Spec.Drawing Spec.DefaultBounds.
From Verif Require Import Analysis.GammaFacts Analysis.GammaBeta Proofs.Slice Proofs.Plot Proofs.Draw Proofs.Pdfs Proofs.Normalised.
From Coq Require Import List.
Import ListNotations.
Open Scope R_scope.

Lemma fold_max l : forall x, (forall y, In y (x :: l) -> y <= fold_left Rmax l x) /\ In (fold_left Rmax l x) (x :: l).
Proof.
  induction l as [|a l IH]; intros x; cbn [fold_left].
  - split; [|now left]. intros y [->|[]]. lra.
  - destruct (IH (Rmax x a)) as [L I]. split.
    + pose proof (L _ (or_introl eq_refl)). pose proof (Rmax_l x a). pose proof (Rmax_r x a).
      intros y [->|[->|Hy]]; [lra|lra|]. apply L. now right.
    + destruct I as [I|I]; [|now right; right]. rewrite <- I. unfold Rmax. destruct (Rle_dec x a); [right; now left|now left].
Qed.

Lemma indices_one m : indices [m] = map (fun k => [k]) (seq 0 m).
Proof.
  cbn [indices]. induction (seq 0 m) as [|a l IH]; [reflexivity|]. cbn [flat_map map app] in *. now f_equal.
Qed.

Lemma max_of_vector m v : (0 < m)%nat -> vector_of m v -> (forall l, v <> PList l) -> (forall b, v <> PFlag b) ->
  exists M, max_of v = Ok (BNum M) /\ (forall j, (is_vector v = true -> (j < m)%nat) -> value j v <= M) /\
    exists j, (j < if is_vector v then m else 1)%nat /\ value j v = M.
Proof.
  intros Hm V NL NF. destruct v as [a|l|b]; [|now elim (NL l)|now elim (NF b)].
  unfold max_of, value, is_vector. simpl in V. cbn [member]. destruct V as [E|E]; rewrite E.
  - exists (nd_entry a []). split; [reflexivity|]. split; [intros; lra|]. exists 0%nat. auto.
  - unfold nd_max. rewrite E, indices_one, map_map. destruct m as [|m]; [lia|]. cbn [seq map].
    set (l := map (fun x => nd_entry a [x]) (seq 1 m)). destruct (fold_max l (nd_entry a [0%nat])) as [L I].
    eexists. split; [reflexivity|]. split.
    + intros j Hj. apply L. specialize (Hj eq_refl). destruct j as [|j]; [now left|]. right.
      apply in_map_iff. exists (S j). split; auto. apply in_seq. lia.
    + destruct I as [I|I]; [exists 0%nat; split; [lia|exact I]|].
      apply in_map_iff in I. destruct I as (j & Ej & Ij). apply in_seq in Ij. exists j. split; [lia|exact Ej].
Qed.

(** the fields of a family *)
Lemma family_field m c fields ks name : NoDup (map fst ks) ->
  Forall2 (fun p k => fst p = fst k /\
    match snd k with
    | Number => vector_of m (snd p) /\ (forall b, snd p <> PFlag b) /\
                (forall l, snd p = PList l -> ~ arithmetic c (fst p))
    | Flag => exists b, snd p = PFlag b
    end) fields ks -> In (name, Number) ks ->
  exists v, get_field fields name = Ok v /\ vector_of m v /\ (forall b, v <> PFlag b) /\
    (is_vector v = true -> existsb (fun p => is_vector (snd p)) fields = true).
Proof.
  intros ND F. induction F as [|p k fields ks [E H] F IH]; intros I; [destruct I|].
  inversion_clear ND as [|? ? N1 N2]. unfold get_field. cbn [find existsb]. destruct (String.eqb_spec (fst p) name) as [Ep|Ep].
  - exists (snd p). split; [reflexivity|]. destruct I as [->|I].
    + cbn [snd] in H. destruct H as (H1 & H2 & _). repeat split; auto. now intros ->.
    + elim N1. rewrite <- E, Ep. apply in_map_iff. now exists (name, Number).
  - destruct I as [->|I]; [now elim Ep|]. destruct (IH N2 I) as (v & G & H1 & H2 & H3). exists v. split; [exact G|].
    repeat split; auto. intros B. rewrite (H3 B). apply orb_true_r.
Qed.

Lemma dataclass_nodup name ks : In (name, ks) dataclass_fields -> NoDup (map fst ks).
Proof.
  intros I. unfold dataclass_fields in I. simpl in I.
  repeat (destruct I as [I|I]; [injection I as <- <-; cbn [map fst]; repeat constructor; simpl; intuition discriminate|]). destruct I.
Qed.

Lemma ceiling_gt x (i : nat) : INR i < x -> (i < Z.to_nat (ceiling x))%nat.
Proof.
  intros H. unfold ceiling. destruct (base_Int_part (- x)) as [B1 B2].
  assert (IZR (Z.of_nat i) < IZR (- Int_part (- x))) by (rewrite opp_IZR, <- INR_IZR_INZ; lra).
  apply lt_IZR in H0. lia.
Qed.

Lemma arange_has M (i : nat) : INR i <= M -> In (INR i) (arange 0 (M + 1)).
Proof.
  intros H. unfold arange. apply in_map_iff. exists i. split; [apply Rplus_0_l|]. apply in_seq.
  split; [lia|]. apply ceiling_gt. lra.
Qed.
Lemma arange_within (k : nat) x : In x (arange 0 (INR k + 1)) -> 0 <= x <= INR k.
Proof.
  replace 0 with (IZR 0) by reflexivity. rewrite INR_IZR_INZ, arange_integers by lia. intros I. apply in_map_iff in I.
  destruct I as (i & <- & I). apply in_seq in I. split; apply IZR_le; lia.
Qed.

(** A class whose largest value is read off field [f] *)
Lemma counted_grid m c fields f ks : In (pc_name c, ks) dataclass_fields -> In (f, Number) ks ->
  pc_bounds c = MaxOf f -> pc_kind c = Discrete -> family m c fields -> (0 < m)%nat ->
  (forall l, get_field fields f <> Ok (PList l)) ->
  (forall j, (j < curves m fields)%nat -> exists k : nat, parameter fields f j (INR k)) ->
  exists o g, construct c fields = Ok o /\ snd (plot o) = Ok g /\
    (forall j k (i : nat), (j < curves m fields)%nat -> parameter fields f j (INR k) -> (i <= k)%nat -> In (INR i) g) /\
    (forall x, In x g -> exists j k, (j < curves m fields)%nat /\ parameter fields f j (INR k) /\ 0 <= x <= INR k).
Proof.
  intros D If B K (ks' & D' & F) Hm NL W.
  assert (ks' = ks) as ->.
  { clear - D D'. unfold dataclass_fields in *. simpl in D, D'. revert D D'. generalize (pc_name c) as s. intros s D D'.
    repeat (destruct D as [D|D]; [injection D as <- <-;
      repeat (destruct D' as [D'|D']; [first [discriminate D' | injection D' as <-; reflexivity]|]); destruct D'|]). destruct D. }
  destruct (family_field m _ fields ks f (dataclass_nodup _ _ D) F If) as (v & G & V & NF & C).
  assert (NL' : forall l, v <> PList l) by (intros l ->; now elim (NL l)).
  destruct (max_of_vector m v Hm V NL' NF) as (M & E & L & j0 & Hj0 & E0).
  assert (P : forall j r, parameter fields f j r <-> value j v = r).
  { intros j r. unfold parameter. split.
    - intros (v' & G' & H). rewrite G in G'. injection G' as <-. rewrite member_value in H by auto. now injection H.
    - intros <-. exists v. split; auto. now apply member_value. }
  assert (J0 : (j0 < curves m fields)%nat).
  { unfold curves. destruct (is_vector v) eqn:IV; [now rewrite (C eq_refl)|]. destruct (existsb _ fields); lia. }
  exists (mkObject c fields None (Some (BNum M))), (arange 0 (M + 1)). split.
  { unfold construct. rewrite B, G. cbn [bind]. now rewrite E. }
  split. { unfold plot. cbn. now rewrite K. }
  destruct (W j0 J0) as (k0 & Hk0). pose proof (proj1 (P _ _) Hk0) as Ek0. split.
  - intros j k i Hj Hk Hi. apply arange_has. apply P in Hk. apply Rle_trans with (INR k); [now apply le_INR|]. rewrite <- Hk.
    apply L. intros IV. unfold curves in Hj. now rewrite (C IV) in Hj.
  - intros x Hx. exists j0, k0. repeat split; auto; rewrite <- E0, Ek0 in Hx; apply arange_within in Hx; lra.
Qed.

Ltac listed := simpl; repeat (first [left; reflexivity | right]).

Lemma class_named c name : In c plot_classes -> pc_name c = name ->
  find (fun c => String.eqb (pc_name c) name) plot_classes = Some c.
Proof.
  intros I <-. unfold plot_classes in I. simpl in I.
  repeat (destruct I as [<-|I]; [reflexivity|]). destruct I.
Qed.

Lemma Rnat_IZR z (n : nat) : (0 <= z)%Z -> (Z.to_nat z <= n)%nat -> exists i : nat, IZR z = INR i /\ (i <= n)%nat.
Proof. intros Hz Hn. exists (Z.to_nat z). split; auto. now rewrite INR_IZR_INZ, Z2Nat.id. Qed.

Lemma counts_shown release m c fields : In c plot_classes -> In (pc_name c) ["Binomial"; "BetaBinomial"]%string ->
  family m c fields -> (0 < m)%nat -> (forall l, get_field fields "n" <> Ok (PList l)) ->
  (forall j, (j < curves m fields)%nat -> exists k : nat, parameter fields "n" j (INR k)) ->
  exists o g, construct c fields = Ok o /\ snd (plot o) = Ok g /\
    (forall j d, (j < curves m fields)%nat -> member_dist release c fields j = Ok d -> shows_mass g d) /\
    (forall x, In x g -> exists j k, (j < curves m fields)%nat /\ parameter fields "n" j (INR k) /\ 0 <= x <= INR k).
Proof.
  intros I N F Hm NL W.
  assert (X : exists ks, In (pc_name c, ks) dataclass_fields /\ In ("n"%string, Number) ks /\ pc_bounds c = MaxOf "n" /\ pc_kind c = Discrete).
  { simpl in N. destruct N as [N|[N|[]]]; symmetry in N; pose proof (class_named c _ I N) as E; injection E as <-;
      eexists; (split; [listed|split; [listed|split; reflexivity]]). }
  destruct X as (ks & D & If & B & K).
  destruct (counted_grid m c fields "n" ks D If B K F Hm NL W) as (o & g & Ho & Hg & S & T).
  exists o, g. split; [exact Ho|]. split; [exact Hg|]. split; [|exact T].
  intros j d Hj Hd z Hz. destruct (W j Hj) as (k & Hk).
  assert (Y : (0 <= z)%Z /\ (Z.to_nat z <= k)%nat).
  { destruct Hk as (v & G & Hv). clear S T. simpl in N.
    destruct N as [N|[N|[]]]; symmetry in N; unfold member_dist, class_dist in Hd; rewrite N in Hd;
      cbn [dist_properties find fst snd String.eqb Ascii.eqb Bool.eqb] in Hd; unfold dist2, dist3 in Hd; rewrite G in Hd; cbn [bind] in Hd;
      rewrite Hv in Hd; cbn [bind] in Hd.
    - destruct (let* v := get_field fields "p" in _) as [p|]; cbn [bind] in Hd; [|discriminate]. injection Hd as <-.
      unfold Binomial_dist, pmf in Hz. cbn [Binomial_n Binomial_p] in Hz. rewrite Rnat_INR in Hz.
      destruct (Z.leb 0 z && _)%bool eqn:EB; [|now elim Hz]. apply andb_prop in EB. destruct EB as [E1 E2].
      apply Z.leb_le in E1. apply Nat.leb_le in E2. auto.
    - destruct (let* v := get_field fields "alpha" in _) as [p|]; cbn [bind] in Hd; [|discriminate].
      destruct (let* v := get_field fields "beta" in _) as [q|]; cbn [bind] in Hd; [|discriminate]. injection Hd as <-.
      unfold BetaBinomial_dist, pmf in Hz. cbn [BetaBinomial_n BetaBinomial_alpha BetaBinomial_beta] in Hz. rewrite Rnat_INR in Hz.
      destruct (Z.leb 0 z && _)%bool eqn:EB; [|now elim Hz]. apply andb_prop in EB. destruct EB as [E1 E2].
      apply Z.leb_le in E1. apply Nat.leb_le in E2. auto. }
  destruct Y as [Y1 Y2]. destruct (Rnat_IZR z k Y1 Y2) as (i & -> & Hi). now apply (S j k).
Qed.

Lemma draws_shown release m c fields : In c plot_classes -> pc_name c = "Hypergeometric"%string ->
  family m c fields -> (0 < m)%nat -> (forall l, get_field fields "N" <> Ok (PList l)) ->
  (forall j, (j < curves m fields)%nat -> exists k n : nat, parameter fields "N" j (INR k) /\ parameter fields "n" j (INR n) /\ (n <= k)%nat) ->
  exists o g, construct c fields = Ok o /\ snd (plot o) = Ok g /\
    (forall j d, (j < curves m fields)%nat -> member_dist release c fields j = Ok d -> shows_mass g d) /\
    (forall x, In x g -> exists j k, (j < curves m fields)%nat /\ parameter fields "N" j (INR k) /\ 0 <= x <= INR k).
Proof.
  intros I N F Hm NL W.
  assert (X : exists ks, In (pc_name c, ks) dataclass_fields /\ In ("N"%string, Number) ks /\ pc_bounds c = MaxOf "N" /\ pc_kind c = Discrete).
  { pose proof (class_named c _ I N) as E; injection E as <-. eexists; (split; [listed|split; [listed|split; reflexivity]]). }
  destruct X as (ks & D & If & B & K).
  assert (W' : forall j, (j < curves m fields)%nat -> exists k : nat, parameter fields "N" j (INR k)).
  { intros j Hj. destruct (W j Hj) as (k & n & Hk & _). eauto. }
  destruct (counted_grid m c fields "N" ks D If B K F Hm NL W') as (o & g & Ho & Hg & S & T).
  exists o, g. split; [exact Ho|]. split; [exact Hg|]. split; [|exact T].
  intros j d Hj Hd z Hz. destruct (W j Hj) as (k & n & Hk & Hn & Hnk).
  assert (Y : (0 <= z)%Z /\ (Z.to_nat z <= n)%nat).
  { destruct Hn as (v & G & Hv). clear S T. unfold member_dist, class_dist in Hd; rewrite N in Hd;
      cbn [dist_properties find fst snd String.eqb Ascii.eqb Bool.eqb] in Hd; unfold dist2, dist3 in Hd.
    destruct (let* v := get_field fields "N" in _) as [p|]; cbn [bind] in Hd; [|discriminate].
    destruct (let* v := get_field fields "k" in _) as [q|]; cbn [bind] in Hd; [|discriminate].
    rewrite G in Hd; cbn [bind] in Hd; rewrite Hv in Hd; cbn [bind] in Hd. injection Hd as <-.
    unfold Hypergeometric_dist, pmf in Hz. cbn [Hypergeometric_N Hypergeometric_k Hypergeometric_n] in Hz. rewrite Rnat_INR in Hz.
    destruct (Z.leb 0 z && _ && _ && _)%bool eqn:EB; [|now elim Hz].
    apply andb_prop in EB. destruct EB as [EB _]. apply andb_prop in EB. destruct EB as [EB E2].
    apply andb_prop in EB. destruct EB as [E1 _].
    apply Z.leb_le in E1. apply Nat.leb_le in E2. auto. }
  destruct Y as [Y1 Y2]. destruct (Rnat_IZR z n Y1 Y2) as (i & -> & Hi). apply (S j k); auto. lia.
Qed.

Lemma linspace_ends lo hi : lo <= hi -> In lo (linspace lo hi 100) /\ In hi (linspace lo hi 100) /\
  forall x, In x (linspace lo hi 100) -> lo <= x <= hi.
Proof.
  intros H. destruct (linspace_props lo hi H) as (L & E0 & E99 & _ & F). split; [|split].
  - rewrite <- E0 at 1. apply nth_In. lia.
  - rewrite <- E99 at 1. apply nth_In. lia.
  - intros x Hx. exact (proj1 (Forall_forall _ _) F x Hx).
Qed.

Lemma beta_shown release c fields : In c plot_classes -> pc_name c = "Beta"%string ->
  exists o g, construct c fields = Ok o /\ snd (plot o) = Ok g /\
    forall j d, member_dist release c fields j = Ok d -> shows_density g d.
Proof.
  intros I N. pose proof (class_named c _ I N) as E. injection E as <-.
  eexists _, (linspace 0 1 100). split; [reflexivity|]. split; [reflexivity|]. intros j d Hd x Hx.
  destruct (linspace_ends 0 1) as (I0 & I1 & _); [lra|]. exists 0, 1. split; [exact I0|]. split; [exact I1|].
  unfold member_dist, class_dist in Hd. cbn [pc_name dist_properties find fst snd String.eqb Ascii.eqb Bool.eqb] in Hd. unfold dist2 in Hd.
  destruct (let* v := get_field fields "alpha" in _) as [p|]; cbn [bind] in Hd; [|discriminate].
  destruct (let* v := get_field fields "beta" in _) as [q|]; cbn [bind] in Hd; [|discriminate]. injection Hd as <-.
  destruct (Rlt_dec x 0); [elim Hx; apply beta_pdf_out; lra|]. destruct (Rlt_dec 1 x); [elim Hx; apply beta_pdf_out; lra|]. lra.
Qed.

Lemma circle_shown release c fields : In c plot_classes -> pc_name c = "VonMises"%string ->
  exists o g, construct c fields = Ok o /\ snd (plot o) = Ok g /\
    forall j d, member_dist release c fields j = Ok d -> shows_circle g d.
Proof.
  intros I N. pose proof (class_named c _ I N) as E. injection E as <-. pose proof PI_RGT_0 as HP.
  eexists _, (linspace (- PI) PI 100). split; [reflexivity|]. split; [reflexivity|]. intros j d Hd.
  unfold member_dist, class_dist in Hd. cbn [pc_name dist_properties find fst snd String.eqb Ascii.eqb Bool.eqb] in Hd. unfold dist2 in Hd.
  destruct (let* v := get_field fields "mu" in _) as [p|]; cbn [bind] in Hd; [|discriminate].
  destruct (let* v := get_field fields "kappa" in _) as [q|]; cbn [bind] in Hd; [|discriminate]. injection Hd as <-.
  destruct (linspace_ends (- PI) PI) as (I0 & I1 & B); [lra|].
  destruct (VonMises_density (mkVonMises p q)) as (_ & _ & T). exists (- PI).
  replace (- PI + 2 * PI) with PI by ring. repeat split; auto; try (now apply B).
  specialize (T (- PI)). now replace (- PI + 2 * PI) with PI in T by ring.
Qed.

(** Uniform: the constructor takes the second parameter for the upper end, scipy for the width *)
Lemma uniform_grid release c low high : In c plot_classes -> pc_name c = "Uniform"%string ->
  let fields := [("low", PArr (scalar low)); ("high", PArr (scalar high))]%string in
  exists o d, construct c fields = Ok o /\ snd (plot o) = Ok (linspace low high 100) /\
    member_dist release c fields 0 = Ok d /\ d = Uniform_dist (mkUniform low high).
Proof.
  intros I N. pose proof (class_named c _ I N) as E. injection E as <-. eexists _, _. repeat split; reflexivity.
Qed.

Lemma uniform_not_shown release c low high : In c plot_classes -> pc_name c = "Uniform"%string -> 0 < low <= high ->
  let fields := [("low", PArr (scalar low)); ("high", PArr (scalar high))]%string in
  exists o g d, construct c fields = Ok o /\ snd (plot o) = Ok g /\ member_dist release c fields 0 = Ok d /\ ~ shows_density g d.
Proof.
  intros I N H fields. destruct (uniform_grid release c low high I N) as (o & d & Ho & Hg & Hd & ->).
  exists o, (linspace low high 100), (Uniform_dist (mkUniform low high)). repeat split; auto. intros S.
  destruct (S (low + high)) as (a & b & _ & Hb & _ & Hx).
  - unfold Uniform_dist. rewrite uniform_pdf; simpl; try lra. apply Rinv_neq_0_compat. lra.
  - apply linspace_ends in Hb; lra.
Qed.

Lemma uniform_shown release c low high : In c plot_classes -> pc_name c = "Uniform"%string -> low <= 0 < high ->
  let fields := [("low", PArr (scalar low)); ("high", PArr (scalar high))]%string in
  exists o g d, construct c fields = Ok o /\ snd (plot o) = Ok g /\ member_dist release c fields 0 = Ok d /\ shows_density g d.
Proof.
  intros I N H fields. destruct (uniform_grid release c low high I N) as (o & d & Ho & Hg & Hd & ->).
  exists o, (linspace low high 100), (Uniform_dist (mkUniform low high)). repeat split; auto. intros x Hx.
  destruct (linspace_ends low high) as (I0 & I1 & _); [lra|]. exists low, high. split; [exact I0|]. split; [exact I1|].
  destruct (Rlt_dec x low); [elim Hx; apply uniform_pdf_out; simpl; lra|].
  destruct (Rlt_dec (low + high) x); [elim Hx; apply uniform_pdf_out; simpl; lra|]. lra.
Qed.

Lemma betanbinom_not_shown release c (n : nat) a b : In c plot_classes -> pc_name c = "BetaNegativeBinomial"%string ->
  available release c -> (0 < n)%nat -> 0 < a -> 0 < b ->
  let fields := [("n", PArr (scalar (INR n))); ("alpha", PArr (scalar a)); ("beta", PArr (scalar b))]%string in
  exists o g d, construct c fields = Ok o /\ snd (plot o) = Ok g /\ member_dist release c fields 0 = Ok d /\ ~ shows_mass g d.
Proof.
  intros I N A Hn Ha Hb fields. specialize (A N). pose proof (class_named c _ I N) as E. injection E as <-.
  exists (mkObject (mkClass "BetaNegativeBinomial" Discrete (MaxOf "n")) fields None (Some (BNum (INR n)))),
    (arange 0 (INR n + 1)), (S_betanbinom (INR n) a b).
  split; [reflexivity|]. split; [reflexivity|]. split.
  - unfold member_dist, class_dist. cbn [pc_name dist_properties find fst snd String.eqb Ascii.eqb Bool.eqb].
    unfold fields, get_field. cbn [find fst snd String.eqb Ascii.eqb Bool.eqb bind member scalar nd_shape nd_entry].
    unfold BetaNegativeBinomial_dist. now rewrite A.
  - intros S. specialize (S (Z.of_nat (n + 1))). unfold pmf in S. rewrite Nat2Z.id in S.
    rewrite (proj2 (Z.leb_le _ _)) in S by lia. pose proof (pos_INR n).
    replace (INR n + INR (n + 1) - 1) with (INR (n + n)) in S by (rewrite !plus_INR; simpl; ring).
    assert (P : 0 < choose (INR (n + n)) (n + 1) * Beta_fun (a + INR n) (b + INR (n + 1)) / Beta_fun a b).
    { apply Rdiv_lt_0_compat; [|now apply Beta_fun_pos]. apply Rmult_lt_0_compat; [apply choose_pos; lia|].
      pose proof (pos_INR (n + 1)). apply Beta_fun_pos; lra. }
    specialize (S (Rgt_not_eq _ _ P)). rewrite <- INR_IZR_INZ in S. apply arange_within in S. rewrite plus_INR in S. simpl in S. lra.
Qed.
