(** Proofs about the samplers. *)

From Coq Require Import Reals ZArith String Lia Lra Bool.
From Coquelicot Require Import Coquelicot.
From Verif Require Import Model.Num Model.Py Model.Dists Model.ScipyDist Model.Table Model.NdArray Model.MatrixModel Model.Sampling.
From Verif Require Import Spec.Shapes Spec.Densities Spec.Special Spec.Joint Spec.Sampling Proofs.Param Proofs.Shapes.
From Coq Require Import List.
Import ListNotations.

(** ** Where the randomness comes from *)
Section Monad.
Context {A G : Type} {NA : Num A}.
Variable entries : request (nd A) -> G -> list nat -> A.
Variable advance : request (nd A) -> G -> G.
Variable from_seed : Z -> G.
Notation threads := (@Spec.Sampling.threads A G advance _).
Notation reseeds := (@Spec.Sampling.reseeds A G from_seed _).
Notation rvs := (Model.Sampling.rvs G entries advance from_seed).

Lemma chain_app g l g' l' g'' : chain advance g l g' -> chain advance g' l' g'' -> chain advance g (l ++ l') g''.
Proof. induction 1; simpl; auto. intros; constructor; auto. Qed.

Lemma threads_ret {T} (r : res T) : threads (ret G r).
Proof. intros w r' w' [= <- <-]. split; auto. exists []. split. unfold draws. now rewrite app_nil_r. constructor. Qed.

Lemma threads_bind {T U} (m : @samp A G T) (f : T -> @samp A G U) :
  threads m -> (forall a, threads (f a)) -> threads (sbind G m f).
Proof.
  intros Hm Hf w r w'. unfold sbind. destruct (m w) as [r1 w1] eqn:E. destruct (Hm _ _ _ E) as (Hg & l & Hl & Hc).
  destruct r1 as [a|e].
  - intros E2. destruct (Hf _ _ _ _ E2) as (Hg2 & l2 & Hl2 & Hc2). split. congruence.
    exists (l ++ l2). split. unfold draws in *. now rewrite Hl2, Hl, app_assoc. eapply chain_app; eauto.
  - intros [= <- <-]. split; eauto.
Qed.

Lemma threads_rvs q : threads (rvs RS_generator q).
Proof.
  intros w r w'. unfold Model.Sampling.rvs. destruct (request_shape q).
  - intros [= <- <-]. simpl. split; auto. eexists. split. unfold draws. simpl. reflexivity. repeat constructor.
  - intros E. exact (threads_ret (Raise e) w r w' E).
Qed.

Lemma threads_for {T} (f : nd A -> @samp A G T) l : (forall x, threads (f x)) -> threads (for_each G f l).
Proof.
  intros Hf. induction l; simpl. apply threads_ret.
  apply threads_bind; auto. intros. apply threads_bind; auto. intros. apply threads_ret.
Qed.

Lemma reseeds_ret {T} z (r : res T) : reseeds z (ret G r).
Proof. intros w r' w' [= <- <-]. split; auto. split; auto. exists []. split. unfold draws. now rewrite app_nil_r. constructor. Qed.

Lemma reseeds_bind {T U} z (m : @samp A G T) (f : T -> @samp A G U) :
  reseeds z m -> (forall a, reseeds z (f a)) -> reseeds z (sbind G m f).
Proof.
  intros Hm Hf w r w'. unfold sbind. destruct (m w) as [r1 w1] eqn:E. destruct (Hm _ _ _ E) as (Hg & Hg' & l & Hl & Hc).
  destruct r1 as [a|e].
  - intros E2. destruct (Hf _ _ _ _ E2) as (Hg2 & Hg2' & l2 & Hl2 & Hc2). split. congruence. split. congruence.
    exists (l ++ l2). split. unfold draws in *. now rewrite Hl2, Hl, app_assoc. apply Forall_app; auto.
  - intros [= <- <-]. eauto.
Qed.

Lemma reseeds_rvs z q : reseeds z (rvs (RS_int z) q).
Proof.
  intros w r w'. unfold Model.Sampling.rvs. destruct (request_shape q).
  - intros [= <- <-]. simpl. repeat (split; auto). eexists. split. unfold draws. simpl. reflexivity. repeat constructor.
  - intros E. exact (reseeds_ret z (Raise e) w r w' E).
Qed.

Lemma reseeds_for {T} z (f : nd A -> @samp A G T) l : (forall x, reseeds z (f x)) -> reseeds z (for_each G f l).
Proof.
  intros Hf. induction l; simpl. apply reseeds_ret.
  apply reseeds_bind; auto. intros. apply reseeds_bind; auto. intros. apply reseeds_ret.
Qed.

Lemma chain_states g l g' : chain advance g l g' -> forall l1 e l2, l = l1 ++ e :: l2 -> chain advance g l1 (snd e).
Proof.
  induction 1 as [|q g l g' H IH]; intros [|e1 l1] e l2 E; simpl in E; try discriminate.
  - injection E as <- <-. constructor.
  - injection E as <- ->. constructor. eapply IH. reflexivity.
Qed.

Lemma chain_distinct : never_repeats advance -> forall l g g', chain advance g l g' -> distinct_draws l.
Proof.
  intros Hn. induction l as [|[q h] l IH]; intros g g' H; unfold distinct_draws; simpl. constructor.
  inversion H; subst. constructor; [|eapply IH; eassumption]. intros Hin. apply in_map_iff in Hin. destruct Hin as ([q' h'] & E & Hin).
  simpl in E. subst h'. apply in_split in Hin. destruct Hin as (l1 & l2 & ->).
  pose proof (chain_states _ _ _ H ((q, h) :: l1) (q', h) l2 eq_refl) as Hc. simpl in Hc.
  apply (Hn _ _ _ Hc); auto. discriminate.
Qed.

Lemma threads_independent {T} (m : @samp A G T) : never_repeats advance -> threads m -> independent m.
Proof.
  intros Hn Hm w r w' l E Hl. destruct (Hm _ _ _ E) as (_ & l' & Hl' & Hc).
  assert (l = l') as ->. { unfold draws in *. rewrite Hl in Hl'. now apply app_inv_head in Hl'. }
  eapply chain_distinct; eauto.
Qed.

End Monad.

Ltac threads_tac := intros; repeat first [apply threads_ret | apply threads_rvs | apply threads_bind; [|intro] | apply threads_for; intro
  | match goal with |- threads _ (match ?x with _ => _ end) => destruct x end].
Ltac reseeds_tac := intros; repeat first [apply reseeds_ret | apply reseeds_rvs | apply reseeds_bind; [|intro] | apply reseeds_for; intro
  | match goal with |- reseeds _ _ (match ?x with _ => _ end) => destruct x end].

Section Calls.
Context {A G : Type} {NA : Num A}.
Variable entries : request (nd A) -> G -> list nat -> A.
Variable advance : request (nd A) -> G -> G.
Variable from_seed : Z -> G.

Lemma nig_threads d k rv : threads advance (NormalInverseGamma_sample_beta G entries advance from_seed d k rv RS_generator).
Proof.
  unfold NormalInverseGamma_sample_beta, NormalInverseGamma_sample_variance, NormalInverseGamma_sample_beta_1d,
    NormalInverseGamma_sample_beta_nd, with_variance. threads_tac.
Qed.
Lemma nig_reseeds d k rv z : reseeds from_seed z (NormalInverseGamma_sample_beta G entries advance from_seed d k rv (RS_int z)).
Proof.
  unfold NormalInverseGamma_sample_beta, NormalInverseGamma_sample_variance, NormalInverseGamma_sample_beta_1d,
    NormalInverseGamma_sample_beta_nd, with_variance. reseeds_tac.
Qed.
Lemma ng_threads d k rv : threads advance (NormalGamma_sample_beta G entries advance from_seed d k rv RS_generator).
Proof. unfold NormalGamma_sample_beta, NormalGamma_sample_variance, with_variance. threads_tac. Qed.
Lemma ng_reseeds d k rv z : reseeds from_seed z (NormalGamma_sample_beta G entries advance from_seed d k rv (RS_int z)).
Proof. unfold NormalGamma_sample_beta, NormalGamma_sample_variance, with_variance. reseeds_tac. Qed.
Lemma niw_threads d k rv : threads advance (NormalInverseWishart_sample_mean G entries advance from_seed d k rv RS_generator).
Proof. unfold NormalInverseWishart_sample_mean, NormalInverseWishart_sample_variance, stacked_means, with_variance. threads_tac. Qed.
Lemma niw_reseeds d k rv z : reseeds from_seed z (NormalInverseWishart_sample_mean G entries advance from_seed d k rv (RS_int z)).
Proof. unfold NormalInverseWishart_sample_mean, NormalInverseWishart_sample_variance, stacked_means, with_variance. reseeds_tac. Qed.
Lemma nw_threads inv d k rv : threads advance (NormalWishart_sample_mean G entries advance from_seed inv d k rv RS_generator).
Proof. unfold NormalWishart_sample_mean, NormalWishart_sample_variance, stacked_means, with_variance. threads_tac. Qed.
Lemma nw_reseeds inv d k rv z : reseeds from_seed z (NormalWishart_sample_mean G entries advance from_seed inv d k rv (RS_int z)).
Proof. unfold NormalWishart_sample_mean, NormalWishart_sample_variance, stacked_means, with_variance. reseeds_tac. Qed.
Lemma bg_threads a b o s : threads advance (beta_geometric_rvs G entries advance from_seed a b o s RS_generator).
Proof. unfold beta_geometric_rvs. threads_tac. Qed.
Lemma bg_reseeds a b o s z : reseeds from_seed z (beta_geometric_rvs G entries advance from_seed a b o s (RS_int z)).
Proof. unfold beta_geometric_rvs. reseeds_tac. Qed.
Lemma cg_threads a b q s : threads advance (compound_gamma_rvs G entries advance from_seed a b q s RS_generator).
Proof. unfold compound_gamma_rvs. threads_tac. Qed.
Lemma cg_reseeds a b q s z : reseeds from_seed z (compound_gamma_rvs G entries advance from_seed a b q s (RS_int z)).
Proof. unfold compound_gamma_rvs. reseeds_tac. Qed.

End Calls.

(** ** Values and shapes *)
Local Close Scope R_scope.
Local Open Scope nat_scope.
Section Values.
Context {A G : Type} {NA : Num A}.
Variable entries : request (nd A) -> G -> list nat -> A.
Variable advance : request (nd A) -> G -> G.
Variable from_seed : Z -> G.
Notation rvs := (Model.Sampling.rvs G entries advance from_seed).
Notation state_of := (state_of G from_seed).

Lemma returns_ret {T} (a : T) (w : @world A G) (P : T -> @world A G -> Prop) : P a w -> returns (ret G (Ok a)) w P.
Proof. intros. exists a, w. auto. Qed.
Lemma returns_bind {T U} (m : @samp A G T) (f : T -> @samp A G U) w (P : T -> @world A G -> Prop) (Q : U -> @world A G -> Prop) :
  returns m w P -> (forall a w', P a w' -> returns (f a) w' Q) -> returns (sbind G m f) w Q.
Proof.
  intros (a & w1 & E & H) Hf. destruct (Hf _ _ H) as (b & w2 & E2 & H2).
  exists b, w2. unfold sbind. rewrite E. auto.
Qed.
Lemma returns_ok {T U} (r : res T) a (f : T -> @samp A G U) w Q :
  r = Ok a -> returns (f a) w Q -> returns (sbind G (ret G r) f) w Q.
Proof. intros -> H. exact H. Qed.
Lemma returns_mono {T} (m : @samp A G T) w (P Q : T -> @world A G -> Prop) :
  (forall a w', P a w' -> Q a w') -> returns m w P -> returns m w Q.
Proof. intros H (a & w' & E & Ha). exists a, w'. auto. Qed.
Lemma returns_rvs rs q s w (P : nd A -> @world A G -> Prop) : request_shape q = Ok s ->
  P (mkNd s (entries q (state_of rs w))) (leave G rs (advance q (state_of rs w)) (q, state_of rs w) w) -> returns (rvs rs q) w P.
Proof. intros E H. do 2 eexists. unfold Model.Sampling.rvs. rewrite E. split. reflexivity. exact H. Qed.
Lemma returns_rvs_bind {U} rs q s w (f : nd A -> @samp A G U) Q : request_shape q = Ok s ->
  returns (f (mkNd s (entries q (state_of rs w)))) (leave G rs (advance q (state_of rs w)) (q, state_of rs w) w) Q ->
  returns (sbind G (rvs rs q) f) w Q.
Proof. intros E (a & w' & H & Ha). exists a, w'. unfold sbind, Model.Sampling.rvs. rewrite E. auto. Qed.
Lemma raises_rvs_bind {U} rs q s w (f : nd A -> @samp A G U) e : request_shape q = Ok s ->
  raises (f (mkNd s (entries q (state_of rs w)))) (leave G rs (advance q (state_of rs w)) (q, state_of rs w) w) e ->
  raises (sbind G (rvs rs q) f) w e.
Proof. intros E (w' & H). exists w'. unfold sbind, Model.Sampling.rvs. rewrite E. auto. Qed.
Lemma raises_ok {T U} (r : res T) a (f : T -> @samp A G U) w e :
  r = Ok a -> raises (f a) w e -> raises (sbind G (ret G r) f) w e.
Proof. intros -> H. exact H. Qed.
Lemma raises_bind_l {T U} (m : @samp A G T) (f : T -> @samp A G U) w e : raises m w e -> raises (sbind G m f) w e.
Proof. intros (w' & E). exists w'. unfold sbind. now rewrite E. Qed.
Lemma raises_bind_r {T U} (m : @samp A G T) (f : T -> @samp A G U) w P e :
  returns m w P -> (forall a w', P a w' -> raises (f a) w' e) -> raises (sbind G m f) w e.
Proof. intros (a & w1 & E & H) Hf. destruct (Hf _ _ H) as (w2 & E2). exists w2. unfold sbind. now rewrite E. Qed.

Lemma returns_for rs Q (dx dy : nd A) s l : forall w, (forall x, In x l -> request_shape (Q x) = Ok s) ->
  returns (for_each G (fun x => rvs rs (Q x)) l) w (fun ys _ => length ys = length l /\
    exists gs : nat -> G, (forall z, rs = RS_int z -> forall i, gs i = from_seed z) /\
    forall i, i < length l -> nth i ys dy = mkNd s (entries (Q (nth i l dx)) (gs i))).
Proof.
  induction l as [|x l IH]; intros w H; simpl.
  - apply returns_ret. split; auto. exists (fun _ => state_of rs w). split. now intros z ->. intros; lia.
  - eapply returns_rvs_bind. { apply H; now left. }
    eapply returns_bind. apply IH. intros; apply H; now right.
    intros ys w'' (Hlen & gs & Hgs & Hys). apply returns_ret. simpl. split; auto.
    exists (fun i => match i with 0 => state_of rs w | S i => gs i end). split.
    + intros z E [|i]; auto. now rewrite E.
    + intros [|i] Hi; auto. apply Hys. lia.
Qed.

Lemma shape_eqb_refl s : shape_eqb s s = true.
Proof. unfold shape_eqb. destruct (list_eq_dec _ s s); congruence. Qed.

Lemma stack_ok (ys : list (nd A)) s (dy : nd A) : ys <> [] -> (forall i, i < length ys -> nd_shape (nth i ys dy) = s) ->
  exists f, stack ys = Ok (mkNd (length ys :: s) f) /\ forall i t, i < length ys -> f (i :: t) = nd_entry (nth i ys dy) t.
Proof.
  intros Hn Hs. destruct ys as [|y ys]; [congruence|]. unfold stack.
  assert (Hy : nd_shape y = s) by (apply (Hs 0); simpl; lia).
  replace (forallb _ _) with true.
  - eexists. rewrite Hy. split. reflexivity. intros i t Hi. cbv beta iota. f_equal. now apply nth_indep.
  - symmetry. apply forallb_forall. intros x Hx. apply (In_nth _ _ dy) in Hx. destruct Hx as (i & Hi & <-).
    rewrite (Hs _ Hi), Hy. apply shape_eqb_refl.
Qed.

Lemma iterate_nth (a : nd A) n s (dx : nd A) i : nd_shape a = n :: s -> i < n ->
  exists l, iterate a = Ok l /\ length l = n /\ nth i l dx = mkNd s (fun t => nd_entry a (i :: t)) /\ forall x, In x l -> nd_shape x = s.
Proof.
  intros E Hi. unfold iterate. rewrite E. eexists. split. reflexivity. rewrite map_length, seq_length. split; auto. split.
  - rewrite nth_indep with (d' := (fun k => mkNd s (fun t => nd_entry a (k :: t))) i) by now rewrite map_length, seq_length.
    rewrite (map_nth (fun k => mkNd s (fun t => nd_entry a (k :: t)))), seq_nth; auto.
  - intros x Hx. apply in_map_iff in Hx. destruct Hx as (j & <- & _). reflexivity.
Qed.

(** The list comprehension over [variance], stacked *)
Lemma returns_stacked rs Q n s s' (variance dx : nd A) w :
  nd_shape variance = n :: s -> 0 < n -> (forall x, nd_shape x = s -> request_shape (Q x) = Ok s') ->
  returns (sbind G (ret G (iterate variance)) (fun vs =>
     sbind G (for_each G (fun x => rvs rs (Q x)) vs) (fun l => ret G (stack l)))) w
    (fun b _ => nd_shape b = n :: s' /\ exists gs : nat -> G, (forall z, rs = RS_int z -> forall i, gs i = from_seed z) /\
      forall i t, i < n -> nd_entry b (i :: t) = entries (Q (mkNd s (fun j => nd_entry variance (i :: j)))) (gs i) t).
Proof.
  intros E Hn HQ. destruct (iterate_nth variance n s dx 0 E Hn) as (l & El & Hl & _ & Hs).
  eapply returns_ok. exact El.
  eapply returns_bind. { apply (returns_for rs Q dx dx s'). intros x Hx. apply HQ. now apply Hs. }
  intros ys w' (Hlen & gs & Hgs & Hys).
  destruct (stack_ok ys s' dx) as (f & Ef & Hf).
  - destruct ys; simpl in Hlen; try lia. discriminate.
  - intros i Hi. rewrite Hys by lia. reflexivity.
  - rewrite Ef. apply returns_ret. simpl. split. congruence. exists gs. split; auto.
    intros i t Hi. rewrite Hf by lia. rewrite Hys by lia. simpl. f_equal. f_equal.
    destruct (iterate_nth variance n s dx i E Hi) as (l2 & El2 & _ & E2 & _). congruence.
Qed.

Lemma raises_stacked0 rs Q s (variance : nd A) w :
  nd_shape variance = 0 :: s ->
  raises (sbind G (ret G (iterate variance)) (fun vs =>
     sbind G (for_each G (fun x => rvs rs (Q x)) vs) (fun l => ret G (stack l)))) w (ValueError "need at least one array to stack").
Proof. intros E. exists w. unfold iterate. rewrite E. reflexivity. Qed.

Lemma squeeze_big k n : 2 <= n -> squeeze [1; n] = [n] /\ (k <> 1 -> squeeze [k; n] = [k; n]) /\
   squeeze [1; n; n] = [n; n] /\ (k <> 1 -> squeeze [k; n; n] = [k; n; n]).
Proof.
  intros H. unfold squeeze. simpl.
  destruct (Nat.eqb_spec n 1); [lia|]. destruct (Nat.eqb_spec k 1); simpl; repeat split; auto; intros; congruence.
Qed.

Lemma mvn_shape (mean cov : nd A) n : 2 <= n -> nd_shape mean = [n] -> nd_shape cov = [n; n] ->
  request_shape (Q_multivariate_normal mean cov 1) = Ok [n].
Proof.
  intros Hn Hm Hc. unfold request_shape, mvn_dim, size. rewrite Hm, Hc. simpl. rewrite Nat.mul_1_r.
  destruct (Nat.eqb_spec n 1); [lia|]. rewrite Nat.eqb_refl. cbn. f_equal. now apply (squeeze_big 1).
Qed.

Lemma rvs_shape_scalars k : rvs_shape [[]; []] (Some [k]) = Ok [k].
Proof. reflexivity. Qed.
Lemma rvs_shape_scalar_vec k : rvs_shape [[]; [k]] (Some [k]) = Ok [k].
Proof.
  unfold rvs_shape. simpl. destruct k as [|[|k]]; simpl; auto. now rewrite Nat.eqb_refl.
Qed.


Lemma bc_nil_r s : broadcast_shapes s [] = Some s.
Proof.
  assert (E : forall l, bc l [] = Some l) by (destruct l; reflexivity).
  unfold broadcast_shapes. simpl (rev []). rewrite E. simpl. now rewrite rev_involutive.
Qed.
Lemma bc_nil_l s : broadcast_shapes [] s = Some s.
Proof. unfold broadcast_shapes. simpl. now rewrite rev_involutive. Qed.
Lemma at_scalar (a : nd A) i : nd_shape a = [] -> at_index i a = nd_entry a [].
Proof. unfold at_index. intros ->. reflexivity. Qed.
Lemma proj_lt s : forall i, Forall2 lt i s -> proj s i = i.
Proof.
  induction s as [|d s IH]; intros i H; inversion H; subst; simpl; auto. rewrite IH by auto.
  destruct (Nat.eqb_spec d 1); auto. f_equal. lia.
Qed.
Lemma Forall2_rev {X Y} (R : X -> Y -> Prop) l l' : Forall2 R l l' -> Forall2 R (rev l) (rev l').
Proof. induction 1; simpl; auto. apply Forall2_app; auto. Qed.
Lemma at_self (a : nd A) i : Forall2 lt i (nd_shape a) -> at_index i a = nd_entry a i.
Proof. intros H. unfold at_index. rewrite proj_lt by now apply Forall2_rev. now rewrite rev_involutive. Qed.

Lemma map2_scalar_r (f : A -> A -> A) (a b : nd A) : nd_shape b = [] ->
  exists c, map2 f a b = Ok c /\ nd_shape c = nd_shape a /\
  forall i, Forall2 lt i (nd_shape a) -> nd_entry c i = f (nd_entry a i) (nd_entry b []).
Proof.
  intros H. unfold map2. rewrite H, bc_nil_r. eexists. split; [reflexivity|]. split; auto. intros i Hi. simpl.
  now rewrite at_self, at_scalar.
Qed.
Lemma map2_scalar_l (f : A -> A -> A) (a b : nd A) : nd_shape a = [] ->
  exists c, map2 f a b = Ok c /\ nd_shape c = nd_shape b /\
  forall i, Forall2 lt i (nd_shape b) -> nd_entry c i = f (nd_entry a []) (nd_entry b i).
Proof.
  intros H. unfold map2. rewrite H, bc_nil_l. eexists. split; [reflexivity|]. split; auto. intros i Hi. simpl.
  now rewrite (at_self b), (at_scalar a).
Qed.

Lemma scaled_cov (D v : nd A) n k : nd_shape D = [n; n] -> nd_shape v = [k] ->
  exists V, transpose (nmul (transpose (Ok (new_axis D))) (Ok v)) = Ok V /\ nd_shape V = [k; n; n] /\
  forall i a b, i < k -> a < n -> b < n -> nd_entry V [i; a; b] = nmul (nd_entry D [a; b]) (nd_entry v [i]).
Proof.
  intros HD Hv. cbn -[Nat.eqb]. unfold map2. unfold transpose_nd at 1. cbn [nd_shape new_axis].
  assert (E : broadcast_shapes (rev (1 :: nd_shape D)) (nd_shape v) = Some [n; n; k]).
  { rewrite HD, Hv. unfold broadcast_shapes. cbn -[Nat.eqb]. destruct (Nat.eqb_spec 1 k) as [<-|]; reflexivity. }
  rewrite E. eexists. split. cbn -[Nat.eqb]. reflexivity. split. reflexivity.
  intros i a b Hi Ha Hb. cbn -[Nat.eqb at_index].
  rewrite (at_self (transpose_nd (new_axis D)) [b; a; i]) || idtac.
  unfold at_index. cbn -[Nat.eqb]. rewrite HD, Hv. cbn -[Nat.eqb].
  destruct (Nat.eqb_spec n 1) as [->|]; cbn -[Nat.eqb]; destruct (Nat.eqb_spec k 1) as [->|]; cbn -[Nat.eqb];
  repeat match goal with H : ?x < 1 |- _ => assert (x = 0) as -> by lia; clear H end; reflexivity.
Qed.

Lemma nig_nd_anatomy (d : NormalInverseGamma (nd A) (nd A) (nd A)) D n k rv rs w :
  NormalInverseGamma_delta_inverse d = Some D -> nd_shape D = [n; n] -> nd_shape (NormalInverseGamma_mu d) = [n] ->
  nd_shape (NormalInverseGamma_alpha d) = [] -> nd_shape (NormalInverseGamma_beta d) = [] -> 2 <= n -> 0 < k ->
  returns (NormalInverseGamma_sample_beta G entries advance from_seed d k rv rs) w (fun r _ =>
    exists beta v gs,
      r = (beta, if rv then Some v else None) /\ nd_shape beta = [k; n] /\ nd_shape v = [k] /\
      (forall i, i < k -> nd_entry v [i] =
         entries (Q_invgamma (NormalInverseGamma_alpha d) (NormalInverseGamma_beta d) (Some [k])) (state_of rs w) [i]) /\
      (forall z, rs = RS_int z -> forall i, gs i = from_seed z) /\
      forall i, i < k -> exists cov, nd_shape cov = [n; n] /\
        (forall a b, a < n -> b < n -> nd_entry cov [a; b] = nmul (nd_entry D [a; b]) (nd_entry v [i])) /\
        forall j, nd_entry beta [i; j] = entries (Q_multivariate_normal (NormalInverseGamma_mu d) cov 1) (gs i) [j]).
Proof.
  intros HD HDs Hmu Ha Hb Hn Hk. unfold NormalInverseGamma_sample_beta, NormalInverseGamma_sample_variance. rewrite HD.
  eapply returns_rvs_bind. { simpl. rewrite Ha, Hb. apply rvs_shape_scalars. }
  unfold NormalInverseGamma_sample_beta_nd. set (v := mkNd [k] _).
  destruct (scaled_cov D v n k HDs eq_refl) as (V & EV & HV & HVe).
  eapply returns_bind.
  { eapply returns_ok. exact EV.
    apply (returns_stacked rs (fun x => Q_multivariate_normal (NormalInverseGamma_mu d) x 1) k [n; n] [n] V D); auto.
    intros x Hx. now apply mvn_shape. }
  intros beta w' (Hbs & gs & Hgs & He). apply returns_ret. exists beta, v, gs. split; auto. split; auto. split; auto. split; auto.
  split; auto. intros i Hi. exists (mkNd [n; n] (fun t => nd_entry V (i :: t))). split; auto. split.
  - intros a b Ha' Hb'. now apply HVe.
  - intros j. exact (He i [j] Hi).
Qed.

Lemma nig_nd_empty (d : NormalInverseGamma (nd A) (nd A) (nd A)) D n rv rs w :
  NormalInverseGamma_delta_inverse d = Some D -> nd_shape D = [n; n] ->
  nd_shape (NormalInverseGamma_alpha d) = [] -> nd_shape (NormalInverseGamma_beta d) = [] ->
  raises (NormalInverseGamma_sample_beta G entries advance from_seed d 0 rv rs) w (ValueError "need at least one array to stack").
Proof.
  intros HD HDs Ha Hb. unfold NormalInverseGamma_sample_beta, NormalInverseGamma_sample_variance. rewrite HD.
  eapply raises_rvs_bind. { simpl. rewrite Ha, Hb. apply rvs_shape_scalars. }
  unfold NormalInverseGamma_sample_beta_nd. set (v := mkNd [0] _).
  destruct (scaled_cov D v n 0 HDs eq_refl) as (V & EV & HV & HVe).
  apply raises_bind_l. eapply raises_ok. exact EV. eapply raises_stacked0. exact HV.
Qed.

(** a number or a vector of variances instead of a matrix *)
Lemma mvn_shape_other (mean cov : nd A) n s : 2 <= n -> nd_shape mean = [n] -> s = [] \/ s = [n] -> nd_shape cov = s ->
  request_shape (Q_multivariate_normal mean cov 1) = Ok [n].
Proof.
  intros Hn Hm Hs Hc. unfold request_shape, mvn_dim, size. rewrite Hm, Hc. simpl. rewrite Nat.mul_1_r.
  destruct (Nat.eqb_spec n 1); [lia|]. destruct Hs as [-> | ->]; cbn -[squeeze]; [|rewrite Nat.eqb_refl; cbn -[squeeze]]; f_equal; now apply (squeeze_big 1).
Qed.

Lemma scaled_cov_other (D v : nd A) n k s : s = [] \/ s = [n] -> nd_shape D = s -> nd_shape v = [k] ->
  exists V, transpose (nmul (transpose (Ok (new_axis D))) (Ok v)) = Ok V /\ nd_shape V = k :: s /\
  forall i t, i < k -> Forall2 lt t s -> nd_entry V (i :: t) = nmul (nd_entry D t) (nd_entry v [i]).
Proof.
  intros Hs HD Hv. cbn -[Nat.eqb]. unfold map2. unfold transpose_nd at 1. cbn [nd_shape new_axis].
  assert (E : broadcast_shapes (rev (1 :: nd_shape D)) (nd_shape v) = Some (rev (k :: s))).
  { rewrite HD, Hv. destruct Hs as [-> | ->]; unfold broadcast_shapes; cbn -[Nat.eqb]; destruct (Nat.eqb_spec 1 k) as [<-|]; reflexivity. }
  rewrite E. eexists. split. cbn -[Nat.eqb rev]. reflexivity. split. { cbn [nd_shape transpose_nd]. apply rev_involutive. }
  intros i t Hi Ht. destruct Hs as [-> | ->]; inversion Ht as [|a ? t' ? Ha Ht']; subst; [|inversion Ht'; subst];
  cbn -[Nat.eqb at_index]; unfold at_index; cbn -[Nat.eqb]; rewrite HD, Hv; cbn -[Nat.eqb].
  - destruct (Nat.eqb_spec k 1) as [->|]; cbn -[Nat.eqb]; [assert (i = 0) as -> by lia|]; reflexivity.
  - destruct (Nat.eqb_spec n 1) as [->|]; cbn -[Nat.eqb]; destruct (Nat.eqb_spec k 1) as [->|]; cbn -[Nat.eqb];
    repeat match goal with H : ?x < 1 |- _ => assert (x = 0) as -> by lia; clear H end; reflexivity.
Qed.

Lemma nig_nd_other (d : NormalInverseGamma (nd A) (nd A) (nd A)) D n k rv rs w :
  NormalInverseGamma_delta_inverse d = Some D -> nd_shape D = [] \/ nd_shape D = [n] -> nd_shape (NormalInverseGamma_mu d) = [n] ->
  nd_shape (NormalInverseGamma_alpha d) = [] -> nd_shape (NormalInverseGamma_beta d) = [] -> 2 <= n -> 0 < k ->
  returns (NormalInverseGamma_sample_beta G entries advance from_seed d k rv rs) w (fun r _ =>
    exists beta v gs,
      r = (beta, if rv then Some v else None) /\ nd_shape beta = [k; n] /\ nd_shape v = [k] /\
      (forall i, i < k -> nd_entry v [i] =
         entries (Q_invgamma (NormalInverseGamma_alpha d) (NormalInverseGamma_beta d) (Some [k])) (state_of rs w) [i]) /\
      forall i, i < k -> exists cov, nd_shape cov = nd_shape D /\
        (forall t, Forall2 lt t (nd_shape D) -> nd_entry cov t = nmul (nd_entry D t) (nd_entry v [i])) /\
        forall j, nd_entry beta [i; j] = entries (Q_multivariate_normal (NormalInverseGamma_mu d) cov 1) (gs i) [j]).
Proof.
  intros HD HDs Hmu Ha Hb Hn Hk. unfold NormalInverseGamma_sample_beta, NormalInverseGamma_sample_variance. rewrite HD.
  eapply returns_rvs_bind. { simpl. rewrite Ha, Hb. apply rvs_shape_scalars. }
  unfold NormalInverseGamma_sample_beta_nd. set (v := mkNd [k] _).
  destruct (scaled_cov_other D v n k _ HDs eq_refl eq_refl) as (V & EV & HV & HVe).
  eapply returns_bind.
  { eapply returns_ok. exact EV.
    apply (returns_stacked rs (fun x => Q_multivariate_normal (NormalInverseGamma_mu d) x 1) k (nd_shape D) [n] V D); auto.
    intros x Hx. now apply (mvn_shape_other _ _ _ (nd_shape D)). }
  intros beta w' (Hbs & gs & Hgs & He). apply returns_ret. exists beta, v, gs. split; auto. split; auto. split; auto. split; auto.
  intros i Hi. exists (mkNd (nd_shape D) (fun t => nd_entry V (i :: t))). split; auto. split.
  - intros t Ht. now apply HVe.
  - intros j. exact (He i [j] Hi).
Qed.

Lemma map2_vec_scalar (f : A -> A -> A) (a b : nd A) k : nd_shape a = [k] -> nd_shape b = [] ->
  exists c, map2 f a b = Ok c /\ nd_shape c = [k] /\ forall i, i < k -> nd_entry c [i] = f (nd_entry a [i]) (nd_entry b []).
Proof.
  intros Ha Hb. destruct (map2_scalar_r f a b Hb) as (c & E & Hc & He). exists c. rewrite Ha in *. repeat split; auto.
Qed.
Lemma map2_scalar_vec (f : A -> A -> A) (a b : nd A) k : nd_shape a = [] -> nd_shape b = [k] ->
  exists c, map2 f a b = Ok c /\ nd_shape c = [k] /\ forall i, i < k -> nd_entry c [i] = f (nd_entry a []) (nd_entry b [i]).
Proof.
  intros Ha Hb. destruct (map2_scalar_l f a b Ha) as (c & E & Hc & He). exists c. rewrite Hb in *. repeat split; auto.
Qed.

Lemma returns_draw rs q s (w : @world A G) : request_shape q = Ok s ->
  returns (rvs rs q) w (fun v w' => exists g, v = mkNd s (entries q g) /\ g = state_of rs w /\ draws w w' [(q, g)]).
Proof. intros E. eapply returns_rvs. exact E. eexists. split. reflexivity. split. reflexivity. unfold draws. now destruct rs. Qed.
Lemma draws_app (w w' w'' : @world A G) l l' : draws w w' l -> draws w' w'' l' -> draws w w'' (l ++ l').
Proof. unfold draws. intros H ->. now rewrite H, app_assoc. Qed.

Lemma nig_1d_anatomy (d : NormalInverseGamma (nd A) (nd A) (nd A)) nu k rv rs w :
  NormalInverseGamma_delta_inverse d = None -> NormalInverseGamma_nu d = Some nu -> nd_shape nu = [] ->
  nd_shape (NormalInverseGamma_mu d) = [] -> nd_shape (NormalInverseGamma_alpha d) = [] -> nd_shape (NormalInverseGamma_beta d) = [] ->
  returns (NormalInverseGamma_sample_beta G entries advance from_seed d k rv rs) w (fun r w' =>
    exists beta v sigma g1 g2,
      let q1 := Q_invgamma (NormalInverseGamma_alpha d) (NormalInverseGamma_beta d) (Some [k]) in
      let q2 := Q_norm (NormalInverseGamma_mu d) sigma (Some [k]) in
      r = (beta, if rv then Some v else None) /\ nd_shape beta = [k] /\ nd_shape v = [k] /\ nd_shape sigma = [k] /\
      draws w w' [(q1, g1); (q2, g2)] /\
      forall i, i < k -> nd_entry v [i] = entries q1 g1 [i] /\
        nd_entry sigma [i] = nsqrt (ndiv (nd_entry v [i]) (nd_entry nu [])) /\ nd_entry beta [i] = entries q2 g2 [i]).
Proof.
  intros HD Hnu Hnus Hmu Ha Hb. unfold NormalInverseGamma_sample_beta, NormalInverseGamma_sample_variance. rewrite HD.
  eapply returns_bind. { apply returns_draw. simpl. rewrite Ha, Hb. apply rvs_shape_scalars. }
  intros v w1 (g1 & Ev & _ & Hw1). unfold NormalInverseGamma_sample_beta_1d. rewrite Hnu.
  assert (Hvs : nd_shape v = [k]) by now rewrite Ev.
  destruct (map2_vec_scalar ndiv v nu k Hvs Hnus) as (c & Ec & Hcs & Hce).
  eapply returns_bind.
  { eapply returns_ok. cbn. rewrite Ec. cbn. reflexivity.
    apply returns_draw. simpl. rewrite Hmu, Hcs. apply rvs_shape_scalar_vec. }
  intros b w2 (g2 & Eb & _ & Hw2). apply returns_ret.
  exists b, v, (map1 nsqrt c), g1, g2. cbv zeta. split; auto. split. now rewrite Eb. split; auto. split; auto. split.
  - exact (draws_app _ _ _ _ _ Hw1 Hw2).
  - intros i Hi. split. now rewrite Ev. split. simpl. now rewrite Hce. now rewrite Eb.
Qed.

Lemma ng_anatomy (d : NormalGamma (nd A)) k rv rs w :
  nd_shape (NormalGamma_mu d) = [] -> nd_shape (NormalGamma_lam d) = [] ->
  nd_shape (NormalGamma_alpha d) = [] -> nd_shape (NormalGamma_beta d) = [] ->
  returns (NormalGamma_sample_beta G entries advance from_seed d k rv rs) w (fun r w' =>
    exists beta v scale sigma g1 g2,
      let q1 := Q_gamma (NormalGamma_alpha d) scale (Some [k]) in
      let q2 := Q_norm (NormalGamma_mu d) sigma (Some [k]) in
      r = (beta, if rv then Some v else None) /\ nd_shape beta = [k] /\ nd_shape v = [k] /\ nd_shape sigma = [k] /\
      nd_shape scale = [] /\ nd_entry scale [] = ndiv (nlit 1) (nd_entry (NormalGamma_beta d) []) /\
      draws w w' [(q1, g1); (q2, g2)] /\ g1 = state_of rs w /\
      forall i, i < k -> nd_entry v [i] = ndiv (nlit 1) (nmul (nd_entry (NormalGamma_lam d) []) (entries q1 g1 [i])) /\
        nd_entry sigma [i] = nsqrt (nd_entry v [i]) /\ nd_entry beta [i] = entries q2 g2 [i]).
Proof.
  intros Hmu Hl Ha Hb. unfold NormalGamma_sample_beta, NormalGamma_sample_variance.
  destruct (map2_scalar_l ndiv (scalar (nlit 1)) (NormalGamma_beta d) eq_refl) as (sc & Esc & Hsc & Hsce).
  rewrite Hb in Hsc, Hsce.
  eapply returns_bind with (P := fun v w1 => exists g1, let q1 := Q_gamma (NormalGamma_alpha d) sc (Some [k]) in
    draws w w1 [(q1, g1)] /\ g1 = state_of rs w /\ nd_shape v = [k] /\
    forall i, i < k -> nd_entry v [i] = ndiv (nlit 1) (nmul (nd_entry (NormalGamma_lam d) []) (entries q1 g1 [i]))).
  { eapply returns_ok. exact Esc. eapply returns_bind. { apply returns_draw. simpl. rewrite Ha, Hsc. apply rvs_shape_scalars. }
    intros t w1 (g1 & Et & Eg & Hw1). assert (Hts : nd_shape t = [k]) by now rewrite Et.
    destruct (map2_scalar_vec nmul (NormalGamma_lam d) t k Hl Hts) as (p & Ep & Hps & Hpe).
    destruct (map2_scalar_vec ndiv (scalar (nlit 1)) p k eq_refl Hps) as (v & Evv & Hvs & Hve).
    eapply returns_ok. exact Ep. exists v, w1. split. unfold ret. f_equal. exact Evv.
    exists g1. cbv zeta. split; auto. split; auto. split; auto. intros i Hi. rewrite Hve, Hpe, Et by auto. reflexivity. }
  intros v w1 (g1 & Hw1 & Eg & Hvs & Hve). eapply returns_ok. reflexivity.
  eapply returns_bind. { apply returns_draw. simpl. rewrite Hmu, Hvs. apply rvs_shape_scalar_vec. }
  intros b w2 (g2 & Eb & _ & Hw2). apply returns_ret.
  exists b, v, sc, (map1 nsqrt v), g1, g2. cbv zeta. split; auto. split. now rewrite Eb. split; auto. split; auto. split; auto.
  split. now apply Hsce. split. exact (draws_app _ _ _ _ _ Hw1 Hw2). split; auto.
  intros i Hi. split; auto. split; auto. now rewrite Eb.
Qed.

Lemma wishart_shape (df V : nd A) n k : 2 <= n -> nd_shape V = [n; n] ->
  request_shape (Q_invwishart df V k) = Ok (if Nat.eqb k 1 then [n; n] else [k; n; n]) /\
  request_shape (Q_wishart df V k) = Ok (if Nat.eqb k 1 then [n; n] else [k; n; n]).
Proof.
  intros Hn H. unfold request_shape, wishart_dim. rewrite H, Nat.eqb_refl. cbn [bind].
  destruct (squeeze_big k n Hn) as (_ & _ & E1 & E2). destruct (Nat.eqb_spec k 1) as [->|Hk]. now rewrite E1. now rewrite E2.
Qed.

Lemma pad_shape k n (v : nd A) : nd_shape v = (if Nat.eqb k 1 then [n; n] else [k; n; n]) ->
  nd_shape (pad_single k v) = [k; n; n] /\
  forall i r c, i < k -> nd_entry (pad_single k v) [i; r; c] = nd_entry v (at_draw k i r c).
Proof.
  unfold pad_single, at_draw. destruct (Nat.eqb_spec k 1) as [->|Hk]; intros H; simpl; rewrite ?H; split; auto.
Qed.

Lemma at_draw_lt k n i r c : i < k -> r < n -> c < n -> Forall2 lt (at_draw k i r c) (if Nat.eqb k 1 then [n; n] else [k; n; n]).
Proof. unfold at_draw. destruct (Nat.eqb k 1); auto. Qed.

Lemma niw_anatomy (d : NormalInverseWishart (nd A)) n k rv rs w :
  nd_shape (NormalInverseWishart_mu d) = [n] -> nd_shape (NormalInverseWishart_psi d) = [n; n] ->
  nd_shape (NormalInverseWishart_kappa d) = [] -> 2 <= n -> 0 < k ->
  returns (NormalInverseWishart_sample_mean G entries advance from_seed d k rv rs) w (fun r _ =>
    exists mean v gs,
      let q := Q_invwishart (NormalInverseWishart_nu d) (NormalInverseWishart_psi d) k in
      r = (mean, if rv then Some v else None) /\ nd_shape mean = [k; n] /\ nd_shape v = [k; n; n] /\
      (forall i r c, i < k -> r < n -> c < n -> nd_entry v [i; r; c] =
         ndiv (entries q (state_of rs w) (at_draw k i r c)) (nd_entry (NormalInverseWishart_kappa d) [])) /\
      (forall z, rs = RS_int z -> forall i, gs i = from_seed z) /\
      forall i, i < k -> exists cov, nd_shape cov = [n; n] /\ (forall a b, nd_entry cov [a; b] = nd_entry v [i; a; b]) /\
        forall j, nd_entry mean [i; j] = entries (Q_multivariate_normal (NormalInverseWishart_mu d) cov 1) (gs i) [j]).
Proof.
  intros Hmu Hpsi Hka Hn Hk. unfold NormalInverseWishart_sample_mean, NormalInverseWishart_sample_variance.
  destruct (wishart_shape (NormalInverseWishart_nu d) (NormalInverseWishart_psi d) n k Hn Hpsi) as [Es _].
  set (q := Q_invwishart (NormalInverseWishart_nu d) (NormalInverseWishart_psi d) k) in *.
  eapply returns_bind with (P := fun v _ => nd_shape v = [k; n; n] /\
    forall i r c, i < k -> r < n -> c < n -> nd_entry v [i; r; c] =
         ndiv (entries q (state_of rs w) (at_draw k i r c)) (nd_entry (NormalInverseWishart_kappa d) [])).
  { eapply returns_bind. { apply returns_draw. exact Es. }
    intros t w1 (g1 & Et & Eg & Hw1). destruct (map2_scalar_r ndiv t (NormalInverseWishart_kappa d) Hka) as (v & Ev & Hvs & Hve).
    eapply returns_ok. exact Ev. apply returns_ret. rewrite Et in Hvs, Hve. cbn [nd_shape] in Hvs, Hve.
    destruct (pad_shape k n v Hvs) as [Hp Hpe]. split; auto. intros i r c Hi Hr Hc. rewrite Hpe by auto.
    rewrite Hve by now apply at_draw_lt. now rewrite Eg. }
  intros v w1 (Hvs & Hve). unfold stacked_means.
  eapply returns_bind.
  { apply (returns_stacked rs (fun x => Q_multivariate_normal (NormalInverseWishart_mu d) x 1) k [n; n] [n] v v); auto.
    intros x Hx. now apply mvn_shape. }
  intros mean w2 (Hms & gs & Hgs & He). apply returns_ret. exists mean, v, gs. cbv zeta. repeat (split; auto).
  intros i Hi. exists (mkNd [n; n] (fun t => nd_entry v (i :: t))). repeat split; auto.
Qed.

Lemma niw_empty (d : NormalInverseWishart (nd A)) n rv rs w :
  nd_shape (NormalInverseWishart_psi d) = [n; n] -> nd_shape (NormalInverseWishart_kappa d) = [] -> 2 <= n ->
  raises (NormalInverseWishart_sample_mean G entries advance from_seed d 0 rv rs) w (ValueError "need at least one array to stack").
Proof.
  intros Hpsi Hka Hn. unfold NormalInverseWishart_sample_mean, NormalInverseWishart_sample_variance.
  destruct (wishart_shape (NormalInverseWishart_nu d) (NormalInverseWishart_psi d) n 0 Hn Hpsi) as [Es _].
  eapply raises_bind_r with (P := fun v _ => nd_shape v = [0; n; n]).
  { eapply returns_bind. { apply returns_draw. exact Es. }
    intros t w1 (g1 & Et & Eg & Hw1). destruct (map2_scalar_r ndiv t (NormalInverseWishart_kappa d) Hka) as (v & Ev & Hvs & Hve).
    eapply returns_ok. exact Ev. apply returns_ret. rewrite Et in Hvs. exact Hvs. }
  intros v w1 Hv. apply raises_bind_l. eapply raises_stacked0. exact Hv.
Qed.

Lemma nw_anatomy inv (d : NormalWishart (nd A)) n k rv rs w :
  nd_shape (NormalWishart_mu d) = [n] -> nd_shape (NormalWishart_W d) = [n; n] ->
  nd_shape (NormalWishart_lam d) = [] -> 2 <= n -> 0 < k ->
  let q := Q_wishart (NormalWishart_nu d) (NormalWishart_W d) k in
  exists precision, nd_shape precision = (if Nat.eqb k 1 then [n; n] else [k; n; n]) /\
    (forall i r c, i < k -> r < n -> c < n -> nd_entry precision (at_draw k i r c) =
       nmul (nd_entry (NormalWishart_lam d) []) (entries q (state_of rs w) (at_draw k i r c))) /\
    (forall e, inv precision = Raise e ->
       raises (NormalWishart_sample_mean G entries advance from_seed inv d k rv rs) w e) /\
    forall variance, inv precision = Ok variance -> nd_shape variance = nd_shape precision ->
  returns (NormalWishart_sample_mean G entries advance from_seed inv d k rv rs) w (fun r _ =>
    exists mean v gs,
      r = (mean, if rv then Some v else None) /\ nd_shape mean = [k; n] /\ nd_shape v = [k; n; n] /\
      (forall i r c, i < k -> nd_entry v [i; r; c] = nd_entry variance (at_draw k i r c)) /\
      (forall z, rs = RS_int z -> forall i, gs i = from_seed z) /\
      forall i, i < k -> exists cov, nd_shape cov = [n; n] /\ (forall a b, nd_entry cov [a; b] = nd_entry v [i; a; b]) /\
        forall j, nd_entry mean [i; j] = entries (Q_multivariate_normal (NormalWishart_mu d) cov 1) (gs i) [j]).
Proof.
  intros Hmu Hpsi Hka Hn Hk q. unfold NormalWishart_sample_mean, NormalWishart_sample_variance.
  destruct (wishart_shape (NormalWishart_nu d) (NormalWishart_W d) n k Hn Hpsi) as [_ Es]. fold q in Es.
  set (t := mkNd (if Nat.eqb k 1 then [n; n] else [k; n; n]) (entries q (state_of rs w))).
  destruct (map2_scalar_l nmul (NormalWishart_lam d) t Hka) as (p & Ep & Hps & Hpe).
  cbn [nd_shape t] in Hps. exists p. split; auto. split; [|split].
  - intros i r c Hi Hr Hc. rewrite Hpe by now apply at_draw_lt. reflexivity.
  - intros e He. apply raises_bind_l. eapply raises_rvs_bind. exact Es.
    eapply raises_ok. exact Ep. unfold sbind, ret. rewrite He. eexists; reflexivity.
  - intros va Hva Hvs.
    eapply returns_bind with (P := fun v _ => nd_shape v = [k; n; n] /\
      (forall i r c, i < k -> nd_entry v [i; r; c] = nd_entry va (at_draw k i r c))).
    { eapply returns_rvs_bind. exact Es.
      eapply returns_ok. exact Ep.
      eapply returns_ok. exact Hva. apply returns_ret. rewrite Hps in Hvs.
      destruct (pad_shape k n va Hvs) as [Hp Hpe']. split; auto. }
    intros v w1 (Hvs' & H4). unfold stacked_means.
    eapply returns_bind.
    { apply (returns_stacked rs (fun x => Q_multivariate_normal (NormalWishart_mu d) x 1) k [n; n] [n] v v); auto.
      intros x Hx. now apply mvn_shape. }
    intros mean w2 (Hms & gs & Hgs & He). apply returns_ret. exists mean, v, gs. repeat (split; auto).
    intros i Hi. exists (mkNd [n; n] (fun t => nd_entry v (i :: t))). repeat split; auto.
Qed.

(** One dimension: scipy has already dropped the matrix axes *)
Lemma nw_one inv (d : NormalWishart (nd A)) k rv rs w :
  (forall a, length (nd_shape a) < 2 -> inv a = Raise LinAlgError) ->
  nd_shape (NormalWishart_W d) = [1; 1] -> nd_shape (NormalWishart_lam d) = [] ->
  raises (NormalWishart_sample_mean G entries advance from_seed inv d k rv rs) w LinAlgError.
Proof.
  intros Hinv HW Hl. unfold NormalWishart_sample_mean, NormalWishart_sample_variance. apply raises_bind_l.
  eapply raises_rvs_bind. { unfold request_shape, wishart_dim. simpl. rewrite HW. reflexivity. }
  match goal with |- context [Ok (mkNd ?s ?f)] => set (t := mkNd s f) end.
  destruct (map2_scalar_l nmul (NormalWishart_lam d) t Hl) as (p & Ep & Hps & Hpe).
  eapply raises_ok. exact Ep. exists (leave G rs (advance (Q_wishart (NormalWishart_nu d) (NormalWishart_W d) k) (state_of rs w))
    (Q_wishart (NormalWishart_nu d) (NormalWishart_W d) k, state_of rs w) w).
  unfold sbind, ret. rewrite Hinv. reflexivity. rewrite Hps. unfold t, squeeze. simpl. destruct (Nat.eqb k 1); simpl; lia.
Qed.

Lemma nig_nd_one (d : NormalInverseGamma (nd A) (nd A) (nd A)) D k rv rs w :
  NormalInverseGamma_delta_inverse d = Some D -> nd_shape D = [1; 1] -> nd_shape (NormalInverseGamma_mu d) = [1] ->
  nd_shape (NormalInverseGamma_alpha d) = [] -> nd_shape (NormalInverseGamma_beta d) = [] -> 0 < k ->
  returns (NormalInverseGamma_sample_beta G entries advance from_seed d k rv rs) w (fun r _ => nd_shape (fst r) = [k]).
Proof.
  intros HD HDs Hmu Ha Hb Hk. unfold NormalInverseGamma_sample_beta, NormalInverseGamma_sample_variance. rewrite HD.
  eapply returns_rvs_bind. { simpl. rewrite Ha, Hb. apply rvs_shape_scalars. }
  unfold NormalInverseGamma_sample_beta_nd. set (v := mkNd [k] _).
  destruct (scaled_cov D v 1 k HDs eq_refl) as (V & EV & HV & HVe).
  eapply returns_bind.
  { eapply returns_ok. exact EV.
    apply (returns_stacked rs (fun x => Q_multivariate_normal (NormalInverseGamma_mu d) x 1) k [1; 1] [] V D); auto.
    intros x Hx. unfold request_shape. rewrite Hmu, Hx. reflexivity. }
  intros beta w' (Hbs & _). apply returns_ret. exact Hbs.
Qed.

Lemma niw_one (d : NormalInverseWishart (nd A)) k rv rs w :
  nd_shape (NormalInverseWishart_mu d) = [1] -> nd_shape (NormalInverseWishart_psi d) = [1; 1] ->
  nd_shape (NormalInverseWishart_kappa d) = [] -> 0 < k ->
  returns (NormalInverseWishart_sample_mean G entries advance from_seed d k rv rs) w (fun r _ => nd_shape (fst r) = [k]).
Proof.
  intros Hmu Hpsi Hka Hk. unfold NormalInverseWishart_sample_mean, NormalInverseWishart_sample_variance.
  eapply returns_bind with (P := fun v _ => nd_shape v = [k]).
  { eapply returns_bind. { apply returns_draw. unfold request_shape, wishart_dim. simpl. rewrite Hpsi. reflexivity. }
    intros t w1 (g1 & Et & Eg & Hw1). destruct (map2_scalar_r ndiv t (NormalInverseWishart_kappa d) Hka) as (v & Ev & Hvs & Hve).
    eapply returns_ok. exact Ev. apply returns_ret. rewrite Et in Hvs. unfold pad_single, squeeze in *. simpl in Hvs.
    destruct (Nat.eqb_spec k 1) as [->|]; simpl in *; now rewrite Hvs. }
  intros v w1 Hvs. unfold stacked_means.
  eapply returns_bind.
  { apply (returns_stacked rs (fun x => Q_multivariate_normal (NormalInverseWishart_mu d) x 1) k [] [] v v); auto.
    intros x Hx. unfold request_shape. rewrite Hmu, Hx. reflexivity. }
  intros mean w2 (Hms & _). apply returns_ret. exact Hms.
Qed.

End Values.
