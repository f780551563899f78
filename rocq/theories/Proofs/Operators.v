(** Proofs about the operators. *)

From Coq Require Import Reals Lra Lia ZArith String.
From Verif Require Import Model.Num Model.Py Model.Dists Model.ScipyDist Model.Operators Spec.Densities Spec.Bayes Spec.Convolution Spec.Operators Proofs.Arith.
From Coq Require Import List.
Import ListNotations.
Open Scope R_scope.

Fixpoint lsize (l : list pyval) : nat := match l with [] => 0 | x :: l' => size x + lsize l' end.
Fixpoint fsize (l : list (string * pyval)) : nat := match l with [] => 0 | (_, x) :: l' => size x + fsize l' end.
Lemma size_Arr l : size (Arr l) = S (lsize l). Proof. reflexivity. Qed.
Lemma size_Obj c fs : size (Obj c fs) = S (fsize fs). Proof. reflexivity. Qed.

Lemma pyval_rect' (P : pyval -> Prop) (HN : forall x, P (Nr x)) (HA : forall l, Forall P l -> P (Arr l))
  (HO : forall c fs, Forall (fun p => P (snd p)) fs -> P (Obj c fs)) : forall v, P v.
Proof.
  fix IH 1. intros [x|l|c fs].
  - apply HN.
  - apply HA. induction l; constructor. apply IH. exact IHl.
  - apply HO. induction fs as [|[n x] fs IHfs]; constructor. apply IH. exact IHfs.
Qed.

Lemma lookup_size n fs x : lookup n fs = Some (Ok x) -> (size x <= fsize fs)%nat.
Proof.
  induction fs as [|[m y] fs IH]; cbn. discriminate.
  destruct string_dec. intros [= ->]. lia. intros H. specialize (IH H). lia.
Qed.
Lemma lookup_some n fs : lookup n fs <> None.
Proof. induction fs as [|[m y] fs IH]; cbn. discriminate. destruct string_dec; [discriminate|exact IH]. Qed.

Definition each (f : R -> res R) : list pyval -> comp (list pyval) :=
  fix each l := match l with
  | [] => cret []
  | x :: l' => cbind (elementwise f x) (fun y => cbind (each l') (fun r => cret (y :: r))) end.
Lemma elementwise_Arr f l : elementwise f (Arr l) = cbind (each f l) (fun r => cret (Arr r)).
Proof. reflexivity. Qed.

Lemma cbind_some {A B} (m : comp A) (f : A -> comp B) : m <> None -> (forall a, m = Some (Ok a) -> f a <> None) -> cbind m f <> None.
Proof. intros H1 H2. destruct m as [[a|e]|]; cbn. now apply H2. discriminate. now destruct H1. Qed.
Lemma cbind_inv {A B} (m : comp A) (f : A -> comp B) b : cbind m f = Some (Ok b) -> exists a, m = Some (Ok a) /\ f a = Some (Ok b).
Proof. destruct m as [[a|e]|]; cbn; try discriminate. intros H. now exists a. Qed.

Lemma elementwise_facts f v : elementwise f v <> None /\ forall w, elementwise f v = Some (Ok w) -> size w = size v.
Proof.
  induction v as [x|l IH|c fs _] using pyval_rect'.
  - cbn. unfold rmap, bind. destruct (f x); split; try discriminate. now intros w [= <-].
  - rewrite elementwise_Arr.
    assert (H : each f l <> None /\ forall r, each f l = Some (Ok r) -> lsize r = lsize l).
    { induction IH as [|x l [Hx Sx] _ [Hl Sl]]; cbn [each]. split. discriminate. now intros r [= <-].
      split. apply cbind_some; auto. intros a _. apply cbind_some; auto. discriminate.
      intros r H. apply cbind_inv in H as (y & Hy & H). apply cbind_inv in H as (r' & Hr & H). injection H as <-.
      cbn. rewrite (Sx _ Hy), (Sl _ Hr). reflexivity. }
    destruct H as [H1 H2]. split. apply cbind_some; auto. discriminate.
    intros w H. apply cbind_inv in H as (r & Hr & H). injection H as <-. rewrite !size_Arr. f_equal. now apply H2.
  - split; cbn; discriminate.
Qed.

Lemma cmap_some {A B} (f : A -> comp B) l : (forall x, In x l -> f x <> None) -> cmap f l <> None.
Proof.
  induction l as [|x l IH]; intros H; cbn. discriminate.
  apply cbind_some. apply H; now left. intros y _. apply cbind_some. apply IH. intros; apply H; now right. discriminate.
Qed.
Lemma czip_some {A B C} (f : A -> B -> comp C) l m : (forall x y, In x l -> In y m -> f x y <> None) -> czip f l m <> None.
Proof.
  revert m. induction l as [|x l IH]; intros [|y m] H; cbn; try discriminate.
  apply cbind_some. apply H; now left. intros z _. apply cbind_some. apply IH. intros; apply H; now right. discriminate.
Qed.
Lemma in_lsize x l : In x l -> (size x <= lsize l)%nat.
Proof. induction l as [|y l IH]; cbn. easy. intros [->|H]. lia. specialize (IH H). lia. Qed.

Lemma mul_method_some t c fs w r : (forall a, (size a <= fsize fs)%nat -> t a w <> None) -> mul_method t c fs w = Some r -> r <> None.
Proof.
  intros Ht. destruct c; cbn; intros [= <-];
  repeat (apply cbind_some; [first [apply lookup_some | apply elementwise_facts | idtac]|intros ? ?]); try discriminate;
  apply Ht; repeat match goal with
  | H : lookup _ _ = _ |- _ => apply lookup_size in H
  | H : squared _ = _ |- _ => apply elementwise_facts in H end; lia.
Qed.
Lemma broadcast2_some t l m : (forall x y, In x l -> In y m -> t x y <> None) -> broadcast2 t l m <> None.
Proof.
  intros H. unfold broadcast2.
  destruct l as [|x [|x' l]]; [destruct m as [|y [|y' m]]| |destruct m as [|y [|y' m]]];
  repeat (destruct Nat.eq_dec); try discriminate; (apply cbind_some; [|discriminate]);
  first [apply cmap_some; intros; apply H; auto; now left | apply czip_some; auto | idtac].
Qed.

(** the fuel suffices *)
Lemma mulf_total fuel : forall v w, (size v + size w <= fuel)%nat -> mulf fuel v w <> None.
Proof.
  induction fuel as [|k IH]; intros v w H. destruct v; cbn in H; lia.
  assert (Ha : forall l x, In x l -> (size x < size (Arr l))%nat) by (intros l x Hx; apply in_lsize in Hx; rewrite size_Arr; lia).
  destruct v as [x|l|c fs], w as [y|m|c' fs']; cbn [mulf]; try discriminate.
  - apply cbind_some; [|discriminate]. apply cmap_some. intros z Hz. apply IH. apply Ha in Hz. lia.
  - destruct mul_method eqn:E; [|discriminate]. eapply mul_method_some; [|exact E]. intros a Hs. apply IH. rewrite size_Obj in H. lia.
  - apply cbind_some; [|discriminate]. apply cmap_some. intros z Hz. apply IH. apply Ha in Hz. lia.
  - apply broadcast2_some. intros x y Hx Hy. apply Ha in Hx. apply Ha in Hy. apply IH. lia.
  - apply cbind_some; [|discriminate]. apply cmap_some. intros z Hz. apply IH. apply Ha in Hz. lia.
  - destruct mul_method eqn:E; [|discriminate]. eapply mul_method_some; [|exact E]. intros a Hs. apply IH. rewrite size_Obj in H. lia.
  - destruct mul_method eqn:E.
    + eapply mul_method_some; [|exact E]. intros a Hs. apply IH. rewrite size_Obj in H. lia.
    + apply cbind_some; [|discriminate]. apply cmap_some. intros z Hz. apply IH. apply Ha in Hz. lia.
  - destruct mul_method eqn:E.
    + eapply mul_method_some; [|exact E]. intros a Hs. apply IH. rewrite size_Obj in H. lia.
    + clear E. destruct mul_method eqn:E; [|discriminate]. eapply mul_method_some; [|exact E]. intros a Hs. apply IH. rewrite size_Obj in *. rewrite (size_Obj c') in H. lia.
Qed.
Lemma times_total v w : exists r, times v w = Some r.
Proof. destruct (times v w) eqn:E. eauto. now apply mulf_total in E. Qed.

(** ** Numbers *)

(** the result of [d * k] and [k * d] for an instance with numbers *)
Definition scaled (d : pyval) (k : R) : comp pyval :=
  match d with
  | Obj CExponential [(_, Nr lam)] => if Req_EM_T lam 0 then craise ZeroDivisionError else cret (gamma k (1 / lam))
  | Obj CGamma [(_, Nr a); (_, Nr b)] => cret (gamma (a * k) b)
  | Obj CNegativeBinomial [(_, Nr n); (_, Nr p)] => cret (negative_binomial (n * k) p)
  | Obj CPoisson [(_, Nr lam)] => cret (poisson (lam * k))
  | Obj CNormal [(_, Nr mu); (_, Nr s)] => if Rlt_dec (s ^ 2 * k) 0 then craise ComplexResult else cret (normal (mu * k) (sqrt (s ^ 2 * k)))
  | _ => craise bad_operand
  end.
Lemma mulf_number d x fuel : scalable d ->
  mulf (S (S fuel)) d (Nr x) = scaled d x /\ mulf (S (S fuel)) (Nr x) d = scaled d x.
Proof.
  intros [(lam & ->)|[(a & b & ->)|[(n & p & ->)|[(lam & ->)|(mu & s & ->)]]]]; cbn; try (split; reflexivity).
  - unfold one_over, elementwise, rmap, bind. destruct Req_EM_T; split; reflexivity.
  - unfold root, elementwise, rmap, bind. cbn. destruct Rlt_dec; split; reflexivity.
Qed.
Lemma times_number d x : scalable d -> times d (Nr x) = scaled d x /\ times (Nr x) d = scaled d x.
Proof.
  intros H. unfold times. rewrite (Nat.add_comm (size (Nr x))).
  assert (E : exists f, (size d + size (Nr x) = S (S f))%nat).
  { destruct d; [exists O|eexists|eexists]; try reflexivity; cbn [size]; rewrite Nat.add_1_r; reflexivity. }
  destruct E as (f & ->). exact (mulf_number d x f H).
Qed.

(** ** Arrays *)

Lemma cmap_map {A B C} (f : A -> B) (g : B -> comp C) l : cmap g (map f l) = cmap (fun x => g (f x)) l.
Proof. induction l; cbn. reflexivity. now rewrite IHl. Qed.
Lemma cmap_ext {A B} (f g : A -> comp B) l : (forall x, f x = g x) -> cmap f l = cmap g l.
Proof. intros H. induction l; cbn. reflexivity. now rewrite H, IHl. Qed.
Lemma cmap_ok {A B} (f : A -> comp B) (h : A -> B) l : (forall x, In x l -> f x = cret (h x)) -> cmap f l = cret (map h l).
Proof. induction l as [|x l IH]; intros H; cbn. reflexivity. rewrite H by (now left). cbn. rewrite IH by (intros; apply H; now right). reflexivity. Qed.
Lemma cmap_raise {A B} (f : A -> comp B) (h : A -> B) (bad : A -> Prop) e l :
  (forall x, In x l -> f x = cret (h x) \/ f x = craise e) -> (exists x, In x l /\ f x = craise e) -> cmap f l = craise e.
Proof.
  induction l as [|x l IH]; intros H (y & Hy & Hf). destruct Hy. cbn.
  destruct (H x (or_introl eq_refl)) as [E|E]; rewrite E; cbn; [|reflexivity].
  rewrite IH. reflexivity. intros; apply H; now right. exists y. split; auto. destruct Hy as [->|]; auto. rewrite E in Hf. discriminate.
Qed.

(** [array * d]: an array of instances *)
Lemma array_times d ks : scalable d -> times (array ks) d = cbind (cmap (scaled d) ks) (fun r => cret (Arr r)).
Proof.
  intros H. unfold times, array.
  assert (E : exists f, (size (Arr (map Nr ks)) + size d = S (S f) /\ (2 <= S f \/ ks = []))%nat).
  { rewrite size_Arr. destruct ks as [|k ks].
    - destruct d as [| |c fs]; [exists O|eexists|eexists]; split; try reflexivity; right; reflexivity.
    - cbn [map lsize size]. exists (lsize (map Nr ks) + size d)%nat. split. lia. left. destruct d; cbn [size]; lia. }
  destruct E as (f & -> & C).
  assert (Hm : mulf (S (S f)) (Arr (map Nr ks)) d = cbind (cmap (fun x => mulf (S f) x d) (map Nr ks)) (fun r => cret (Arr r))).
  { destruct H as [(lam & ->)|[(a & b & ->)|[(n & p & ->)|[(lam & ->)|(mu & s & ->)]]]]; reflexivity. }
  rewrite Hm, cmap_map. destruct C as [C| ->]; [|reflexivity].
  destruct f as [|f]; [lia|]. f_equal. apply cmap_ext. intros x. apply mulf_number, H.
Qed.

Lemma mulf_array_r f a ks : mulf (S (S f)) (Nr a) (array ks) = cret (array (map (fun k => a * k) ks)).
Proof.
  unfold array. cbn [mulf]. rewrite cmap_map, (cmap_ok _ (fun k => Nr (a * k))). cbn. now rewrite map_map. reflexivity.
Qed.
Lemma each_map f (h : R -> R) ks : (forall k, In k ks -> f k = Ok (h k)) -> each f (map Nr ks) = cret (map (fun k => Nr (h k)) ks).
Proof. induction ks as [|k ks IH]; intros H; cbn. reflexivity. rewrite H by now left. cbn. rewrite IH by (intros; apply H; now right). reflexivity. Qed.
Lemma elementwise_array f (h : R -> R) ks : (forall k, In k ks -> f k = Ok (h k)) -> elementwise f (array ks) = cret (array (map h ks)).
Proof. intros H. unfold array. rewrite elementwise_Arr, (each_map f h) by auto. cbn. now rewrite map_map. Qed.

(** [d * array]: one instance with array parameters *)
Definition packed (d : pyval) (ks : list R) : pyval :=
  match d with
  | Obj CExponential [(_, Nr lam)] => Obj CGamma [("alpha"%string, array ks); ("beta"%string, Nr (1 / lam))]
  | Obj CGamma [(_, Nr a); (_, Nr b)] => Obj CGamma [("alpha"%string, array (map (fun k => a * k) ks)); ("beta"%string, Nr b)]
  | Obj CNegativeBinomial [(_, Nr n); (_, Nr p)] => Obj CNegativeBinomial [("n"%string, array (map (fun k => n * k) ks)); ("p"%string, Nr p)]
  | Obj CPoisson [(_, Nr lam)] => Obj CPoisson [("lam"%string, array (map (fun k => lam * k) ks))]
  | Obj CNormal [(_, Nr mu); (_, Nr s)] =>
      Obj CNormal [("mu"%string, array (map (fun k => mu * k) ks)); ("sigma"%string, array (map (fun k => sqrt (s ^ 2 * k)) ks))]
  | _ => d
  end.
(** the parameters for which every product is defined *)
Definition can_scale (d : pyval) (ks : list R) : Prop := forall k, In k ks -> exists r, scaled d k = cret r.

Lemma mulf_Obj f c fs w r : mul_method (mulf f) c fs w = Some r -> mulf (S f) (Obj c fs) w = r.
Proof. intros H. cbn [mulf]. rewrite H. destruct w; reflexivity. Qed.

Lemma times_array d ks : scalable d -> ks <> [] -> can_scale d ks -> times d (array ks) = cret (packed d ks).
Proof.
  intros H Hne Hs. unfold times.
  assert (E : exists f, (size d + size (array ks) = S (S (S f)))%nat).
  { unfold array. rewrite size_Arr. destruct ks as [|k ks]; [congruence|]. cbn [map lsize size].
    destruct H as [(lam & ->)|[(a & b & ->)|[(n & p & ->)|[(lam & ->)|(mu & s & ->)]]]]; cbn [size exponential gamma negative_binomial poisson normal]; eexists; cbn; reflexivity. }
  destruct E as (f & ->).
  destruct H as [(lam & ->)|[(a & b & ->)|[(n & p & ->)|[(lam & ->)|(mu & s & ->)]]]]; unfold exponential, gamma, negative_binomial, poisson, normal; (erewrite mulf_Obj; [|reflexivity]);
  cbn [lookup cbind cret string_dec string_rec string_rect Ascii.ascii_dec Ascii.ascii_rec Ascii.ascii_rect Bool.bool_dec bool_rec bool_rect sumbool_rec sumbool_rect eq_rec_r eq_rec eq_rect eq_sym].
  - destruct ks as [|k ks]; [congruence|]. destruct (Hs k) as (r & Hr). now left. cbn in Hr. cbn.
    destruct Req_EM_T; [discriminate|]. reflexivity.
  - rewrite mulf_array_r. reflexivity.
  - rewrite mulf_array_r. reflexivity.
  - rewrite mulf_array_r. reflexivity.
  - change (squared (Nr s)) with (cret (Nr (s ^ 2))). cbn [cbind cret]. rewrite mulf_array_r. cbn [cbind cret]. unfold root.
    rewrite (elementwise_array _ sqrt). cbn [cbind cret]. rewrite mulf_array_r. cbn. now rewrite map_map.
    intros k Hk. apply in_map_iff in Hk as (x & <- & Hx). destruct (Hs x Hx) as (r & Hr). cbn in Hr |- *. destruct Rlt_dec; [discriminate|reflexivity].
Qed.

(** member [i] of [d * array] is element [i] of [array * d] *)
Lemma packed_member d ks i r : scalable d -> (i < length ks)%nat -> scaled d (nth i ks 0) = cret r -> member i (packed d ks) = r.
Proof.
  intros H Hi. assert (N : forall h : R -> R, nth i (map Nr (map h ks)) (Nr 0) = Nr (h (nth i ks 0))).
  { intros h. rewrite (nth_indep _ (Nr 0) (Nr (h 0))), map_nth, map_nth by (rewrite !map_length; auto). reflexivity. }
  pose proof (N (fun x => x)) as N0. rewrite map_id in N0.
  destruct H as [(lam & ->)|[(a & b & ->)|[(n & p & ->)|[(lam & ->)|(mu & s & ->)]]]]; cbn.
  - destruct Req_EM_T; [discriminate|]. intros [= <-]. unfold gamma. now rewrite N0.
  - intros [= <-]. unfold gamma. now rewrite N.
  - intros [= <-]. unfold negative_binomial. now rewrite N.
  - intros [= <-]. unfold poisson. now rewrite N.
  - destruct Rlt_dec; [discriminate|]. intros [= <-]. unfold normal. rewrite (N (fun k => mu * k)), (N (fun k => sqrt (s * (s * 1) * k))). reflexivity.
Qed.

Lemma both_sides d ks : scalable d -> ks <> [] -> can_scale d ks ->
  exists one many, times d (array ks) = cret one /\ times (array ks) d = cret (Arr many) /\ length many = length ks /\
    forall i, (i < length ks)%nat -> times d (Nr (nth i ks 0)) = cret (member i one) /\ nth i many (Nr 0) = member i one.
Proof.
  intros H Hne Hs. exists (packed d ks).
  assert (E : exists h, forall k, In k ks -> scaled d k = cret (h k)).
  { exists (fun k => match scaled d k with Some (Ok r) => r | _ => Nr 0 end). intros k Hk. destruct (Hs k Hk) as (r & ->). reflexivity. }
  destruct E as (h & Hh). exists (map h ks). split. now apply times_array. split.
  { rewrite array_times by auto. rewrite (cmap_ok _ h) by auto. reflexivity. }
  split. apply map_length. intros i Hi. assert (Hin : In (nth i ks 0) ks) by now apply nth_In.
  pose proof (Hh _ Hin) as E. rewrite (packed_member d ks i _ H Hi E). split. now rewrite (proj1 (times_number d _ H)).
  rewrite (nth_indep _ (Nr 0) (h 0)) by now rewrite map_length. now rewrite map_nth.
Qed.

(** ** Sums *)

Lemma plus_poisson l1 l2 : plus (poisson l1) (poisson l2) = cret (poisson (l1 + l2)).
Proof. reflexivity. Qed.
Lemma sum_from lam rest : py_sum (poisson lam) (map poisson rest) = cret (poisson (lam + sumR rest)).
Proof.
  revert lam. induction rest as [|x rest IH]; intros lam; cbn [py_sum map]. cbn. now rewrite Rplus_0_r.
  rewrite plus_poisson. cbn [cbind cret]. rewrite IH. unfold sumR. cbn [fold_right]. now rewrite Rplus_assoc.
Qed.
Lemma sum_fails x lam rest : py_sum (Nr x) (poisson lam :: rest) = craise (AttributeError "lam").
Proof. reflexivity. Qed.

Lemma convN_ext f f' g g' k : (forall i, f i = f' i) -> (forall i, g i = g' i) -> convN f g k = convN f' g' k.
Proof. intros Hf Hg. unfold convN. apply sum_eq. intros i _. now rewrite Hf, Hg. Qed.
Definition pois (lam : R) (k : nat) : R := pmf (Poisson_dist (mkPoisson lam)) (Z.of_nat k).
Lemma sum_law_poisson lams k : pois (sumR lams) k = sum_law (map pois lams) k.
Proof.
  revert k. induction lams as [|x l IH]; intros k.
  - change (sumR []) with 0. cbn [map sum_law]. transitivity (iidN (pois 0) 0 k).
    + pose proof (Poisson_mul_iid (mkPoisson 0) 0 k) as H. cbv [Poisson_mul Poisson_lam nmul NumR] in H.
      replace (0 * INR 0) with 0 in H by ring. exact H.
    + cbn. destruct k; reflexivity.
  - cbn [map sum_law]. change (sumR (x :: l)) with (x + sumR l).
    transitivity (convN (pois x) (pois (sumR l)) k). exact (Poisson_add_conv (mkPoisson x) (mkPoisson (sumR l)) k).
    apply convN_ext; auto.
Qed.

(** ** What the operators accept *)

Lemma cmap_numbers (f : pyval -> comp pyval) (l : list R) r :
  (forall x, exists y, f (Nr x) = cret (Nr y) \/ f (Nr x) = None) -> cmap f (map Nr l) = cret r -> exists l', r = map Nr l'.
Proof.
  intros Hf. revert r. induction l as [|x l IH]; cbn [map cmap]; intros r Hr. injection Hr as <-. now exists [].
  apply cbind_inv in Hr as (y & Hy & Hr). apply cbind_inv in Hr as (r' & Hr' & Hr). injection Hr as <-.
  destruct (Hf x) as (z & [E|E]); rewrite E in Hy; [|discriminate]. injection Hy as <-. destruct (IH _ Hr') as (l' & ->). now exists (z :: l').
Qed.
Lemma czip_numbers (f : pyval -> pyval -> comp pyval) (l m : list R) r :
  (forall x x', exists y, f (Nr x) (Nr x') = cret (Nr y) \/ f (Nr x) (Nr x') = None) ->
  czip f (map Nr l) (map Nr m) = cret r -> exists l', r = map Nr l'.
Proof.
  intros Hf. revert m r. induction l as [|x l IH]; cbn [map czip]; intros m r Hr. injection Hr as <-. now exists [].
  destruct m as [|y m]; cbn [map] in Hr. injection Hr as <-. now exists [].
  apply cbind_inv in Hr as (w & Hw & Hr). apply cbind_inv in Hr as (r' & Hr' & Hr). injection Hr as <-.
  destruct (Hf x y) as (z & [E|E]); rewrite E in Hw; [|discriminate]. injection Hw as <-. destruct (IH _ _ Hr') as (l' & ->). now exists (z :: l').
Qed.
Lemma numeric_mulf f v w r : numeric v -> numeric w -> mulf f v w = cret r -> numeric r.
Proof.
  destruct f as [|f]. discriminate.
  assert (N : forall x y, exists z, mulf f (Nr x) (Nr y) = cret (Nr z) \/ mulf f (Nr x) (Nr y) = None).
  { intros x y. exists (x * y). destruct f; [now right|now left]. }
  assert (A : forall m l, cbind m (fun r => cret (Arr r)) = cret r -> (m = cret l -> exists l', l = map Nr l') -> m = cret l -> numeric r).
  { intros m l H Hl E. rewrite E in H. injection H as <-. destruct (Hl E) as (l' & ->). right. now exists l'. }
  intros [(x & ->)|(l & ->)] [(y & ->)|(m & ->)]; unfold array; cbn [mulf].
  - intros [= <-]. left. eauto.
  - intros H. pose proof H as H'. apply cbind_inv in H' as (q & Hq & _). eapply (A _ q H); auto. apply cmap_numbers. intros; apply N.
  - intros H. pose proof H as H'. apply cbind_inv in H' as (q & Hq & _). eapply (A _ q H); auto. apply cmap_numbers. intros; apply N.
  - unfold broadcast2.
    assert (B : forall u, (u = cret r -> numeric r) -> u = cret r -> numeric r) by auto.
    assert (C1 : forall k l, cbind (cmap (mulf f (Nr k)) (map Nr l)) (fun r => cret (Arr r)) = cret r -> numeric r).
    { intros k l' H. pose proof H as H'. apply cbind_inv in H' as (q & Hq & _). eapply (A _ q H); auto. apply cmap_numbers. intros; apply N. }
    assert (C2 : forall k l, cbind (cmap (fun x => mulf f x (Nr k)) (map Nr l)) (fun r => cret (Arr r)) = cret r -> numeric r).
    { intros k l' H. pose proof H as H'. apply cbind_inv in H' as (q & Hq & _). eapply (A _ q H); auto. apply cmap_numbers. intros; apply N. }
    assert (C3 : forall l m, cbind (czip (mulf f) (map Nr l) (map Nr m)) (fun r => cret (Arr r)) = cret r -> numeric r).
    { intros l' m' H. pose proof H as H'. apply cbind_inv in H' as (q & Hq & _). eapply (A _ q H); auto. apply czip_numbers. intros; apply N. }
    destruct l as [|x [|x' l]].
    + destruct m as [|y [|y' m]]; cbn [map].
      * destruct Nat.eq_dec; [|discriminate]. apply (C3 [] []).
      * apply (C2 y []).
      * destruct Nat.eq_dec; discriminate.
    + apply C1.
    + destruct m as [|y [|y' m]]; cbn [map].
      * destruct Nat.eq_dec; discriminate.
      * apply (C2 y (x :: x' :: l)).
      * destruct Nat.eq_dec; [|discriminate]. apply (C3 (x :: x' :: l) (y :: y' :: m)).
Qed.
Lemma numeric_elementwise f v w : numeric v -> elementwise f v = cret w -> numeric w.
Proof.
  intros [(x & ->)|(l & ->)].
  - cbn. unfold rmap, bind. destruct (f x); [|discriminate]. intros [= <-]. left. eauto.
  - unfold array. rewrite elementwise_Arr. intros H. apply cbind_inv in H as (r & Hr & H). injection H as <-. right.
    assert (A : exists l', r = map Nr l').
    { revert r Hr. induction l as [|x l IH]; cbn [map each]; intros r Hr. injection Hr as <-. now exists [].
      apply cbind_inv in Hr as (y & Hy & Hr). apply cbind_inv in Hr as (r' & Hr' & Hr). injection Hr as <-.
      cbn in Hy. unfold rmap, bind in Hy. destruct (f x) as [z|]; [|discriminate]. injection Hy as <-.
      destruct (IH _ Hr') as (l' & ->). now exists (z :: l'). }
    destruct A as (l' & ->). now exists l'.
Qed.
Lemma numeric_lookup n fs x : Forall (fun p => numeric (snd p)) fs -> lookup n fs = cret x -> numeric x.
Proof. intros H. induction H as [|[m y] fs Hy _ IH]; cbn. discriminate. destruct string_dec. intros [= <-]. exact Hy. exact IH. Qed.

Lemma method_proper f c fs w r o : Forall (fun p => numeric (snd p)) fs -> numeric w ->
  mul_method (mulf f) c fs w = Some o -> o = cret r -> proper r.
Proof.
  intros Hf Hw E ->. destruct c; cbn [mul_method] in E; try discriminate; injection E as E;
  repeat match goal with H : cbind _ _ = _ |- _ => let x := fresh "x" in let Hx := fresh "H" in apply cbind_inv in H as (x & Hx & H) end;
  repeat match goal with H : lookup _ _ = Some (Ok _) |- _ => apply (numeric_lookup _ _ _ Hf) in H end;
  repeat match goal with
  | H : one_over _ = Some (Ok _) |- _ => apply numeric_elementwise in H; [|assumption]
  | H : squared _ = Some (Ok _) |- _ => apply numeric_elementwise in H; [|assumption]
  | H : mulf _ _ _ = Some (Ok _) |- _ => apply numeric_mulf in H; [|assumption|assumption]
  | H : root _ = Some (Ok _) |- _ => apply numeric_elementwise in H; [|assumption] end;
  injection E as <-; eexists; eexists; (split; [reflexivity|]);
  repeat (apply Forall_nil || (apply Forall_cons; [cbn; assumption|])).
Qed.

Lemma stays_proper d w r : proper d -> numeric w ->
  (times d w = cret r -> proper r \/ (exists l, r = Arr l /\ l = [])) /\
  (times w d = cret r -> proper r \/ exists l, r = Arr l /\ Forall proper l).
Proof.
  intros (c & fs & -> & Hf) Hw. unfold times.
  assert (E1 : exists f, (size (Obj c fs) + size w = S f)%nat) by (eexists; reflexivity).
  assert (E2 : exists f, (size w + size (Obj c fs) = S f)%nat) by (rewrite size_Obj, Nat.add_succ_r; eauto).
  destruct E1 as (f & ->), E2 as (g & ->).
  assert (P : forall k z q, mulf k (Nr z) (Obj c fs) = cret q -> proper q).
  { intros k z q. destruct k; [discriminate|]. cbn [mulf]. destruct mul_method eqn:E; [|discriminate]. intros H.
    eapply method_proper; [exact Hf| |exact E|exact H]. left. eauto. }
  split.
  - destruct (mul_method (mulf f) c fs w) as [o|] eqn:E.
    + rewrite (mulf_Obj _ _ _ _ _ E). intros H. left. exact (method_proper f c fs w r o Hf Hw E H).
    + destruct Hw as [(x & ->)|(l & ->)]; cbn [mulf array]; rewrite E. discriminate.
      destruct c; try discriminate. destruct l as [|x l]; cbn [map cmap]. intros [= <-]. right. eauto.
      destruct f as [|f]; [discriminate|]. discriminate.
  - destruct Hw as [(x & ->)|(l & ->)]. intros H. left. exact (P _ _ _ H).
    cbn [mulf array]. intros H. apply cbind_inv in H as (q & Hq & H). injection H as <-. right. exists q. split. reflexivity.
    revert q Hq. induction l as [|x l IH]; cbn [map cmap]; intros q Hq. injection Hq as <-. constructor.
    apply cbind_inv in Hq as (y & Hy & Hq). apply cbind_inv in Hq as (q' & Hq' & Hq). injection Hq as <-. constructor. exact (P _ _ _ Hy). auto.
Qed.

Lemma no_plus v w : has_plus v = false -> has_plus w = false -> is_array v = false -> is_array w = false ->
  andb (is_number v) (is_number w) = false -> plus v w = craise bad_operand.
Proof.
  intros H1 H2 H3 H4 H5. unfold plus. destruct v as [x| |c fs], w as [y| |c' fs']; try discriminate; cbn.
  - destruct c'; try discriminate; reflexivity.
  - rewrite Nat.add_comm. destruct c; try discriminate; reflexivity.
  - destruct c; try discriminate; destruct c'; try discriminate; reflexivity.
Qed.

Lemma number_values k :
  (forall lam, times (Nr k) (poisson lam) = cret (poisson (Poisson_lam (Poisson_mul (mkPoisson lam) k)))) /\
  (forall a b, times (Nr k) (gamma a b) = cret (gamma (Gamma_alpha (Gamma_mul (mkGamma a b) k)) (Gamma_beta (Gamma_mul (mkGamma a b) k)))) /\
  (forall n p, times (Nr k) (negative_binomial n p) =
     let d := NegativeBinomial_mul (mkNegativeBinomial n p) k in cret (negative_binomial (NegativeBinomial_n d) (NegativeBinomial_p d))) /\
  (forall lam, lam <> 0 -> times (Nr k) (exponential lam) =
     let d := Exponential_mul (mkExponential lam) k in cret (gamma (Gamma_alpha d) (Gamma_beta d))) /\
  times (Nr k) (exponential 0) = craise ZeroDivisionError /\
  (forall mu s, 0 <= s ^ 2 * k -> times (Nr k) (normal mu s) =
     let d := Normal_mul (mkNormal mu s) k in cret (normal (Normal_mu d) (Normal_sigma d))) /\
  (forall mu s, s ^ 2 * k < 0 -> times (Nr k) (normal mu s) = craise ComplexResult).
Proof.
  assert (E : forall d, scalable d -> times (Nr k) d = scaled d k) by (intros d H; exact (proj2 (times_number d k H))).
  repeat split; intros; (rewrite E by (unfold scalable; eauto 10)); unfold scaled, exponential, gamma, negative_binomial, poisson, normal; try reflexivity.
  - destruct Req_EM_T; [contradiction|reflexivity].
  - destruct Req_EM_T as [_|C]; [reflexivity|now destruct C].
  - destruct Rlt_dec; [lra|]. reflexivity.
  - destruct Rlt_dec; [reflexivity|lra].
Qed.
Lemma both_sides_times d ks : scalable d -> ks <> [] -> (forall k, In k ks -> exists r, times d (Nr k) = cret r) ->
  exists one many, times d (array ks) = cret one /\ times (array ks) d = cret (Arr many) /\ length many = length ks /\
    forall i, (i < length ks)%nat -> times d (Nr (nth i ks 0)) = cret (member i one) /\ nth i many (Nr 0) = member i one.
Proof. intros H Hn Hs. apply both_sides; auto. intros k Hk. rewrite <- (proj1 (times_number d k H)). auto. Qed.
Lemma sides_differ : ~ (forall (d : pyval) (ks : list R), scalable d -> times d (array ks) = times (array ks) d).
Proof. intros H. specialize (H (poisson 1) [1; 2]). discriminate H. unfold scalable; eauto 10. Qed.
Lemma mistakes :
  (forall l1 l2, times (poisson l1) (poisson l2) = cret (Obj CPoisson [("lam"%string, poisson (l2 * l1))]) /\
                 ~ proper (Obj CPoisson [("lam"%string, poisson (l2 * l1))])) /\
  (forall lam scale, plus (poisson lam) (exponential scale) = cret (poisson (lam + scale)) /\
                     plus (exponential scale) (poisson lam) = cret (poisson (lam + scale))).
Proof.
  split; intros; split; try reflexivity.
  intros (c & fs & [= <- <-] & H). apply Forall_inv in H. destruct H as [(y & E)|(l & E)]; discriminate E.
Qed.
