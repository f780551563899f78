(** Fubini on rectangles and Tonelli for non-negative continuous functions on
    products of open intervals. *)

From Coq Require Import Reals Lra Psatz Classical.
From Coquelicot Require Import Coquelicot.
From Verif Require Import Analysis.Improper.
Open Scope R_scope.

(** Heine-Borel in the form "a local property that can be merged is global". *)
Lemma interval_merge (Q : R -> R -> Prop) (c d : R) :
  c <= d ->
  (forall y, c <= y <= d -> exists del, 0 < del /\
     forall u v, y - del < u -> u <= v -> v < y + del -> c <= u -> v <= d -> Q u v) ->
  (forall u v w, u <= v <= w -> Q u v -> Q v w -> Q u w) ->
  Q c d.
Proof.
  intros Hcd Hloc Hmerge.
  set (S := fun z => c <= z <= d /\ Q c z).
  assert (HB : bound S) by (exists d; intros z [Hz _]; lra).
  assert (HSc : S c).
  { split. lra. destruct (Hloc c) as (del & Hdel & H). lra. apply H; lra. }
  destruct (completeness S HB (ex_intro _ c HSc)) as [z [Hub Hlub]].
  assert (Hcz : c <= z) by now apply Hub.
  assert (Hzd : z <= d) by (apply Hlub; intros y [Hy _]; lra).
  destruct (Hloc z) as (del & Hdel & H). lra.
  assert (Hex : exists y, S y /\ z - del < y).
  { apply NNPP. intros Hno. assert (z <= z - del); [|lra].
    apply Hlub. intros y Hy. apply Rnot_lt_le. intros Hlt. apply Hno. exists y. auto. }
  destruct Hex as (y & [Hy HQ] & Hly).
  assert (Hyz : y <= z) by (apply Hub; split; auto).
  set (w := Rmin d (z + del / 2)).
  assert (Hw : S w).
  { unfold w. split.
    - unfold Rmin; destruct (Rle_dec d (z + del / 2)); lra.
    - apply Hmerge with y; auto.
      + unfold Rmin; destruct (Rle_dec d (z + del / 2)); lra.
      + apply H; unfold Rmin; destruct (Rle_dec d (z + del / 2)); lra. }
  assert (w <= z) by now apply Hub.
  assert (w = d).
  { unfold w in *. unfold Rmin in *. destruct (Rle_dec d (z + del / 2)); lra. }
  rewrite <- H1. apply Hw.
Qed.

Section Rect.
Context (I J : R -> Prop).
Context (openI : forall x, I x -> locally x I) (openJ : forall x, J x -> locally x J).
Context (cvxI : forall a b x, I a -> I b -> a <= x <= b -> I x).
Context (cvxJ : forall a b x, J a -> J b -> a <= x <= b -> J x).
Context (f : R -> R -> R) (Cf : forall x y, I x -> J y -> continuity_2d_pt f x y).

Lemma btwI a b x : I a -> I b -> Rmin a b <= x <= Rmax a b -> I x.
Proof.
  intros Ha Hb Hx. destruct (Rle_dec a b) as [H|H].
  - rewrite Rmin_left, Rmax_right in Hx by lra. apply (cvxI a b); auto.
  - rewrite Rmin_right, Rmax_left in Hx by lra. apply (cvxI b a); auto.
Qed.

Lemma btwJ a b x : J a -> J b -> Rmin a b <= x <= Rmax a b -> J x.
Proof.
  intros Ha Hb Hx. destruct (Rle_dec a b) as [H|H].
  - rewrite Rmin_left, Rmax_right in Hx by lra. apply (cvxJ a b); auto.
  - rewrite Rmin_right, Rmax_left in Hx by lra. apply (cvxJ b a); auto.
Qed.

Lemma cont_fst x y : I x -> J y -> continuous (fun u => f u y) x.
Proof.
  intros Hx Hy. apply continuity_pt_filterlim. intros eps Heps.
  destruct (Cf x y Hx Hy (mkposreal eps Heps)) as [d Hd].
  exists d. split. apply cond_pos. intros u [_ Hu]. simpl in *. unfold R_dist in *.
  apply Hd; auto. rewrite Rminus_eq_0, Rabs_R0. apply cond_pos.
Qed.

Lemma cont_snd x y : I x -> J y -> continuous (fun v => f x v) y.
Proof.
  intros Hx Hy. apply continuity_pt_filterlim. intros eps Heps.
  destruct (Cf x y Hx Hy (mkposreal eps Heps)) as [d Hd].
  exists d. split. apply cond_pos. intros u [_ Hu]. simpl in *. unfold R_dist in *.
  apply Hd; auto. rewrite Rminus_eq_0, Rabs_R0. apply cond_pos.
Qed.

Lemma ex_RInt_fst a b y : I a -> I b -> J y -> ex_RInt (fun x => f x y) a b.
Proof.
  intros Ha Hb Hy. apply (ex_RInt_continuous (V:=R_CompleteNormedModule)).
  intros z Hz. apply cont_fst; auto. now apply (btwI a b).
Qed.

Lemma ex_RInt_snd c d x : J c -> J d -> I x -> ex_RInt (fun y => f x y) c d.
Proof.
  intros Ha Hb Hy. apply (ex_RInt_continuous (V:=R_CompleteNormedModule)).
  intros z Hz. apply cont_snd; auto. now apply (btwJ c d).
Qed.

Lemma Rabs_RInt_diff (g h : R -> R) a b eps :
  ex_RInt g a b -> ex_RInt h a b ->
  (forall x, Rmin a b <= x <= Rmax a b -> Rabs (g x - h x) <= eps) ->
  Rabs (RInt g a b - RInt h a b) <= Rabs (b - a) * eps.
Proof.
  intros Hg Hh H.
  apply (norm_RInt_le_const_abs (V:=R_NormedModule) (fun x => minus (g x) (h x)) a b).
  - intros x Hx. apply H; auto.
  - apply (is_RInt_minus (V:=R_NormedModule)); now apply (RInt_correct (V:=R_CompleteNormedModule)).
Qed.

Lemma cont_param_fst a b y : I a -> I b -> J y -> continuous (fun v => RInt (fun x => f x v) a b) y.
Proof.
  intros Ha Hb Hy. apply continuity_pt_filterlim. intros eps Heps.
  assert (He : 0 < eps / (2 * (Rabs (b - a) + 1))).
  { apply Rdiv_lt_0_compat; auto. pose proof (Rabs_pos (b - a)). lra. }
  destruct (uniform_continuity_2d_1d f (Rmin a b) (Rmax a b) y) with (eps := mkposreal _ He) as [del Hdel].
  { intros x Hx. apply Cf; auto. now apply (btwI a b). }
  destruct (openJ y Hy) as [del2 Hdel2].
  exists (Rmin del del2). split.
  { apply Rmin_pos; apply cond_pos. }
  intros v [_ Hv]. simpl in *. unfold R_dist in *.
  assert (Hv1 : Rabs (v - y) < del) by (eapply Rlt_le_trans; [exact Hv|apply Rmin_l]).
  assert (Hv2 : J v).
  { apply Hdel2. unfold ball; simpl; unfold AbsRing_ball, abs, minus, plus, opp; simpl.
    eapply Rlt_le_trans; [exact Hv|apply Rmin_r]. }
  eapply Rle_lt_trans.
  - apply (Rabs_RInt_diff _ _ a b (eps / (2 * (Rabs (b - a) + 1)))); try now apply ex_RInt_fst.
    intros x Hx. left. apply (Hdel x y x v); auto.
    + pose proof (cond_pos del). lra.
    + apply Rabs_def2 in Hv1. lra.
    + rewrite Rminus_eq_0, Rabs_R0. apply cond_pos.
  - pose proof (Rabs_pos (b - a)) as Hp.
    apply Rle_lt_trans with (eps / 2 * (Rabs (b - a) / (Rabs (b-a) + 1))).
    right; field; lra.
    assert (Rabs (b - a) / (Rabs (b - a) + 1) <= 1).
    { apply Rle_div_l; lra. }
    nra.
Qed.

Lemma cont_param_snd c d x : J c -> J d -> I x -> continuous (fun u => RInt (fun y => f u y) c d) x.
Proof.
  intros Ha Hb Hy. apply continuity_pt_filterlim. intros eps Heps.
  assert (He : 0 < eps / (2 * (Rabs (d - c) + 1))).
  { apply Rdiv_lt_0_compat; auto. pose proof (Rabs_pos (d - c)). lra. }
  destruct (uniform_continuity_2d_1d' f (Rmin c d) (Rmax c d) x) with (eps := mkposreal _ He) as [del Hdel].
  { intros y Hx. apply Cf; auto. now apply (btwJ c d). }
  destruct (openI x Hy) as [del2 Hdel2].
  exists (Rmin del del2). split.
  { apply Rmin_pos; apply cond_pos. }
  intros v [_ Hv]. simpl in *. unfold R_dist in *.
  assert (Hv1 : Rabs (v - x) < del) by (eapply Rlt_le_trans; [exact Hv|apply Rmin_l]).
  assert (Hv2 : I v).
  { apply Hdel2. unfold ball; simpl; unfold AbsRing_ball, abs, minus, plus, opp; simpl.
    eapply Rlt_le_trans; [exact Hv|apply Rmin_r]. }
  eapply Rle_lt_trans.
  - apply (Rabs_RInt_diff _ _ c d (eps / (2 * (Rabs (d - c) + 1)))); try now apply ex_RInt_snd.
    intros y Hx. left. apply (Hdel y x y v); auto.
    + pose proof (cond_pos del). lra.
    + apply Rabs_def2 in Hv1. lra.
    + rewrite Rminus_eq_0, Rabs_R0. apply cond_pos.
  - pose proof (Rabs_pos (d - c)) as Hp.
    apply Rle_lt_trans with (eps / 2 * (Rabs (d - c) / (Rabs (d-c) + 1))).
    right; field; lra.
    assert (Rabs (d - c) / (Rabs (d - c) + 1) <= 1).
    { apply Rle_div_l; lra. }
    nra.
Qed.

Lemma fubini_rect a b c d : I a -> I b -> J c -> J d ->
  RInt (fun x => RInt (fun y => f x y) c d) a b = RInt (fun y => RInt (fun x => f x y) a b) c d.
Proof.
  intros Ha Hb Hc Hd.
  set (K := fun x => RInt (fun y => RInt (fun s => f s y) a x) c d).
  assert (HK : forall x, I x -> is_derive K x (RInt (fun y => f x y) c d)).
  { intros x Hx. unfold K.
    assert (Hder : forall u, I u -> forall t, J t -> is_derive (fun z => RInt (fun s => f s t) a z) u (f u t)).
    { intros u Hu t Ht.
      apply (is_derive_RInt (V:=R_CompleteNormedModule) (fun s => f s t) _ a u).
      - destruct (openI u Hu) as [e He]. exists e. intros y Hy. apply (RInt_correct (V:=R_CompleteNormedModule)).
        apply ex_RInt_fst; auto.
      - now apply cont_fst. }
    evar_last.
    - apply (is_derive_RInt_param (fun x y => RInt (fun s => f s y) a x) c d x).
      + destruct (openI x Hx) as [e He]. exists e. intros u Hu t Ht.
        exists (f u t). apply Hder. now apply He. now apply (btwJ c d).
      + intros t Ht. assert (HJt : J t) by now apply (btwJ c d).
        apply continuity_2d_pt_ext_loc with f; auto.
        destruct (openI x Hx) as [e He]. destruct (openJ t HJt) as [e' He'].
        exists (mkposreal _ (Rmin_pos _ _ (cond_pos e) (cond_pos e'))). simpl. intros u v Hu Hv.
        symmetry. apply is_derive_unique. apply Hder.
        * apply He. unfold ball; simpl; unfold AbsRing_ball, abs, minus, plus, opp; simpl.
          eapply Rlt_le_trans; [exact Hu|apply Rmin_l].
        * apply He'. unfold ball; simpl; unfold AbsRing_ball, abs, minus, plus, opp; simpl.
          eapply Rlt_le_trans; [exact Hv|apply Rmin_r].
      + destruct (openI x Hx) as [e He]. exists e. intros u Hu.
        apply (ex_RInt_continuous (V:=R_CompleteNormedModule)). intros z Hz.
        apply cont_param_fst; auto. now apply (btwJ c d).
    - apply (RInt_ext (V:=R_CompleteNormedModule)). intros t Ht. apply is_derive_unique. apply Hder; auto.
      apply (btwJ c d); auto; lra. }
  assert (H : is_RInt (fun x => RInt (fun y => f x y) c d) a b (minus (K b) (K a))).
  { apply (is_RInt_derive (V:=R_CompleteNormedModule) K).
    - intros x Hx. apply HK. now apply (btwI a b).
    - intros x Hx. apply cont_param_snd; auto. now apply (btwI a b). }
  apply (is_RInt_unique (V:=R_CompleteNormedModule)) in H.
  rewrite H. unfold minus, plus, opp; simpl.
  replace (K a) with 0. unfold K; ring.
  unfold K. symmetry. transitivity (RInt (fun _ => 0) c d).
  - apply (RInt_ext (V:=R_CompleteNormedModule)). intros. apply (RInt_point (V:=R_CompleteNormedModule)).
  - rewrite (RInt_const (V:=R_CompleteNormedModule)). unfold scal; simpl; unfold mult; simpl. ring.
Qed.

End Rect.

Definition open_set (I : R -> Prop) := forall x, I x -> locally x I.

Lemma open_pos : open_set (fun x => 0 < x).
Proof.
  intros x Hx. exists (mkposreal _ Hx). intros y Hy.
  unfold ball in Hy; simpl in Hy; unfold AbsRing_ball, abs, minus, plus, opp in Hy; simpl in Hy.
  apply Rabs_def2 in Hy. lra.
Qed.

Lemma open_01 : open_set (fun x => 0 < x < 1).
Proof.
  intros x Hx. assert (H : 0 < Rmin x (1 - x)) by (apply Rmin_pos; lra).
  exists (mkposreal _ H). intros y Hy.
  unfold ball in Hy; simpl in Hy; unfold AbsRing_ball, abs, minus, plus, opp in Hy; simpl in Hy.
  apply Rabs_def2 in Hy. pose proof (Rmin_l x (1-x)). pose proof (Rmin_r x (1-x)). lra.
Qed.

Lemma open_line : open_set (fun _ => True).
Proof. intros x _. exists (mkposreal 1 Rlt_0_1). auto. Qed.

(** Uniform approximation of [h y = int_I f(.,y)] by integrals over one compact
    interval, on a compact range of [y] (Dini). *)
Lemma dini (I J : R -> Prop) Fa Fb (E : Ends I Fa Fb)
  (oJ : open_set J)  (cvxJ : forall a b x, J a -> J b -> a <= x <= b -> J x)
  (f : R -> R -> R) (Cf : forall x y, I x -> J y -> continuity_2d_pt f x y)
  (Pf : forall x y, I x -> J y -> 0 <= f x y)
  (h : R -> R) (Ch : cont_on h J)
  (Hh : forall y, J y -> is_RInt_gen (fun x => f x y) Fa Fb (h y))
  c d eps : J c -> J d -> c <= d -> 0 < eps ->
  exists a b, I a /\ I b /\ a <= b /\
    forall y, c <= y <= d -> h y - RInt (fun x => f x y) a b < eps.
Proof.
  intros Hc Hd Hcd Heps.
  pose proof (e_cvx _ _ _ E) as cvxI.
  apply (interval_merge (fun u v => exists a b, I a /\ I b /\ a <= b /\
    forall y, c <= y <= d -> u <= y <= v -> h y - RInt (fun x => f x y) a b < eps) c d) in Hcd.
  - destruct Hcd as (a & b & Ha & Hb & Hab & H). exists a, b. repeat split; auto.
  - intros y Hy. assert (HJy : J y) by (apply (cvxJ c d); auto).
    destruct (is_RInt_gen_sup_int I Fa Fb E (fun x => f x y) (h y)) as [_ Hlub].
    + intros x Hx. now apply (cont_fst I J f Cf).
    + intros; now apply Pf.
    + now apply Hh.
    + destruct (Hlub eps Heps) as (a & b & Ha & Hb & Hab & H).
      assert (Hcont : continuous (fun v => h v - RInt (fun x => f x v) a b) y).
      { apply (continuous_minus (V:=R_NormedModule) h (fun v => RInt (fun x => f x v) a b)).
        now apply Ch. apply (cont_param_fst I J oJ cvxI f Cf); auto. }
      assert (Hl : locally y (fun v => h v - RInt (fun x => f x v) a b < eps)).
      { apply (Hcont (fun z => z < eps)). apply open_lt. lra. }
      destruct Hl as [del Hdel]. exists del. split. apply cond_pos.
      intros u v Hu Huv Hv Hcu Hvd. exists a, b. repeat split; auto.
      intros z Hz Hz2. apply Hdel.
      unfold ball; simpl; unfold AbsRing_ball, abs, minus, plus, opp; simpl.
      apply Rabs_def1; lra.
  - intros u v w Huvw (a & b & Ha & Hb & Hab & H) (a' & b' & Ha' & Hb' & Hab' & H').
    exists (Rmin a a'), (Rmax b b').
    assert (IA : I (Rmin a a')) by (unfold Rmin; destruct (Rle_dec a a'); auto).
    assert (IB : I (Rmax b b')) by (unfold Rmax; destruct (Rle_dec b b'); auto).
    assert (La : Rmin a a' <= a) by apply Rmin_l. assert (La' : Rmin a a' <= a') by apply Rmin_r.
    assert (Lb : b <= Rmax b b') by apply Rmax_l. assert (Lb' : b' <= Rmax b b') by apply Rmax_r.
    repeat split; auto; try lra.
    intros y Hy Hyuw. assert (HJy : J y) by (apply (cvxJ c d); auto).
    assert (Hm : forall a0 b0, I a0 -> I b0 -> Rmin a a' <= a0 -> a0 <= b0 -> b0 <= Rmax b b' ->
              RInt (fun x => f x y) a0 b0 <= RInt (fun x => f x y) (Rmin a a') (Rmax b b')).
    { intros. apply (RInt_mono_interval I Fa Fb E (fun x => f x y)); auto.
      intros x Hx. now apply (cont_fst I J f Cf). }
    destruct (Rle_dec y v) as [Hyv|Hyv].
    + specialize (Hm a b Ha Hb La Hab Lb). specialize (H y Hy). lra.
    + specialize (Hm a' b' Ha' Hb' La' Hab' Lb'). specialize (H' y Hy). lra.
Qed.

Lemma RInt_le_const_diff (g h : R -> R) c d eps :
  c <= d -> ex_RInt g c d -> ex_RInt h c d ->
  (forall y, c <= y <= d -> g y - h y <= eps) ->
  RInt g c d <= RInt h c d + eps * (d - c).
Proof.
  intros Hcd Hg Hh H.
  assert (He : is_RInt (fun y => h y + eps) c d (RInt h c d + eps * (d - c))).
  { apply (is_RInt_plus (V:=R_NormedModule) h (fun _ => eps)). now apply (RInt_correct (V:=R_CompleteNormedModule)).
    replace (eps * (d - c)) with (scal (d - c) eps). apply (is_RInt_const (V:=R_NormedModule)).
    unfold scal; simpl; unfold mult; simpl; ring. }
  apply (is_RInt_le g (fun y => h y + eps) c d); auto.
  - now apply (RInt_correct (V:=R_CompleteNormedModule)).
  - intros x Hx. specialize (H x). lra.
Qed.

(** Tonelli: the iterated improper integrals of a non-negative continuous
    function agree. *)
Theorem tonelli (I J : R -> Prop) Fa Fb Ga Gb (EI : Ends I Fa Fb) (EJ : Ends J Ga Gb)
  (oI : open_set I) (oJ : open_set J)
  (f : R -> R -> R) (Cf : forall x y, I x -> J y -> continuity_2d_pt f x y)
  (Pf : forall x y, I x -> J y -> 0 <= f x y)
  (g h : R -> R) (Cg : cont_on g I) (Ch : cont_on h J)
  (Hg : forall x, I x -> is_RInt_gen (fun y => f x y) Ga Gb (g x))
  (Hh : forall y, J y -> is_RInt_gen (fun x => f x y) Fa Fb (h y))
  (l : R) :
  is_RInt_gen g Fa Fb l -> is_RInt_gen h Ga Gb l.
Proof.
  intros HG.
  pose proof (e_cvx _ _ _ EI) as cvxI. pose proof (e_cvx _ _ _ EJ) as cvxJ.
  assert (Pg : forall x, I x -> 0 <= g x).
  { intros x Hx. destruct (ends_inhabited _ _ _ EJ) as [c Hc].
    apply Rle_trans with (RInt (fun y => f x y) c c).
    - right. symmetry. apply (RInt_point (V:=R_CompleteNormedModule)).
    - apply (is_RInt_gen_ge J Ga Gb EJ (fun y => f x y)); auto; try lra.
      intros y Hy. now apply (cont_snd I J f Cf). }
  assert (Ph : forall y, J y -> 0 <= h y).
  { intros y Hy. destruct (ends_inhabited _ _ _ EI) as [c Hc].
    apply Rle_trans with (RInt (fun x => f x y) c c).
    - right. symmetry. apply (RInt_point (V:=R_CompleteNormedModule)).
    - apply (is_RInt_gen_ge I Fa Fb EI (fun x => f x y)); auto; try lra.
      intros x Hx. now apply (cont_fst I J f Cf). }
  destruct (is_RInt_gen_sup_int I Fa Fb EI g l Cg Pg HG) as [Hub Hlub].
  assert (Hgle : forall x c d, I x -> J c -> J d -> c <= d -> RInt (fun y => f x y) c d <= g x).
  { intros. apply (is_RInt_gen_ge J Ga Gb EJ (fun y => f x y)); auto.
    intros y Hy. now apply (cont_snd I J f Cf). }
  assert (Hhle : forall y a b, J y -> I a -> I b -> a <= b -> RInt (fun x => f x y) a b <= h y).
  { intros. apply (is_RInt_gen_ge I Fa Fb EI (fun x => f x y)); auto.
    intros x Hx. now apply (cont_fst I J f Cf). }
  assert (Cf' : forall x y, J x -> I y -> continuity_2d_pt (fun x y => f y x) x y).
  { intros x y Hx Hy e. destruct (Cf y x Hy Hx e) as [dd Hdd]. exists dd. intros; now apply Hdd. }
  assert (exh : forall c d, J c -> J d -> ex_RInt h c d) by (intros; now apply (cont_ex_RInt J Ga Gb EJ)).
  assert (exg : forall c d, I c -> I d -> ex_RInt g c d) by (intros; now apply (cont_ex_RInt I Fa Fb EI)).
  assert (exa : forall a b c d, I a -> I b -> J c -> J d -> ex_RInt (fun y => RInt (fun x => f x y) a b) c d).
  { intros. apply (ex_RInt_continuous (V:=R_CompleteNormedModule)). intros z Hz.
    apply (cont_param_fst I J oJ cvxI f Cf); auto. now apply (ends_between J Ga Gb EJ c d). }
  assert (exb : forall a b c d, I a -> I b -> J c -> J d -> ex_RInt (fun x => RInt (fun y => f x y) c d) a b).
  { intros. apply (ex_RInt_continuous (V:=R_CompleteNormedModule)). intros z Hz.
    apply (cont_param_snd I J oI cvxJ f Cf); auto. now apply (ends_between I Fa Fb EI a b). }
  apply (sup_int_is_RInt_gen J Ga Gb EJ); auto. split.
  - intros c d Hc Hd Hcd. apply le_epsilon. intros eps Heps.
    set (e := eps / (d - c + 1)).
    assert (He : 0 < e) by (apply Rdiv_lt_0_compat; lra).
    destruct (dini I J Fa Fb EI oJ cvxJ f Cf Pf h Ch Hh c d e Hc Hd Hcd He) as (a & b & Ha & Hb & Hab & H).
    apply Rle_trans with (RInt (fun y => RInt (fun x => f x y) a b) c d + e * (d - c)).
    + apply RInt_le_const_diff; auto. intros y Hy. specialize (H y Hy). lra.
    + rewrite <- (fubini_rect I J oI oJ cvxI cvxJ f Cf a b c d) by auto.
      assert (RInt (fun x => RInt (fun y => f x y) c d) a b <= RInt g a b).
      { apply RInt_le; auto. intros x Hx. apply Hgle; auto. apply (cvxI a b); auto; lra. }
      specialize (Hub a b Ha Hb Hab).
      assert (e * (d - c) <= eps).
      { unfold e. replace (eps / (d - c + 1) * (d - c)) with (eps * ((d - c) / (d - c + 1))) by (field; lra).
        assert ((d - c) / (d - c + 1) <= 1) by (apply Rle_div_l; lra). nra. }
      lra.
  - intros eps Heps.
    destruct (Hlub (eps / 2)) as (a & b & Ha & Hb & Hab & Hl). lra.
    set (e := eps / (2 * (b - a + 1))).
    assert (He : 0 < e) by (apply Rdiv_lt_0_compat; lra).
    destruct (dini J I Ga Gb EJ oI cvxI (fun x y => f y x) Cf') with (h := g) (c := a) (d := b) (eps := e)
      as (c & d & Hc & Hd & Hcd & H); auto.
    exists c, d. repeat split; auto.
    assert (RInt g a b <= RInt (fun x => RInt (fun y => f x y) c d) a b + e * (b - a)).
    { apply RInt_le_const_diff; auto. intros y Hy. specialize (H y Hy). lra. }
    rewrite (fubini_rect I J oI oJ cvxI cvxJ f Cf a b c d) in H0 by auto.
    assert (RInt (fun y => RInt (fun x => f x y) a b) c d <= RInt h c d).
    { apply RInt_le; auto. intros x Hx. apply Hhle; auto. apply (cvxJ c d); auto; lra. }
    assert (e * (b - a) <= eps / 2).
    { unfold e. replace (eps / (2 * (b - a + 1)) * (b - a)) with (eps / 2 * ((b - a) / (b - a + 1))) by (field; lra).
      assert ((b - a) / (b - a + 1) <= 1) by (apply Rle_div_l; lra). nra. }
    lra.
Qed.
