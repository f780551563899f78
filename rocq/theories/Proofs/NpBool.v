(** Numpy's booleans. *)

From Coq Require Import ZArith Bool String Reals Lra Lia.
From Verif Require Import Model.Num Model.Py Model.Table Model.PyNum Model.IntTypes Model.NpBool Spec.IntTypes Proofs.Param Proofs.IntTypes.
From Coq Require Import List.
Import ListNotations.
Open Scope Z_scope.

Inductive kind := KBool | KNum (bound : Z).
Definition kbind (a : option kind) (f : kind -> option kind) : option kind := match a with Some a => f a | None => None end.
Definition knum (cap b : Z) : option kind := if b <=? cap then Some (KNum b) else None.
Definition mag (k : kind) : Z := match k with KBool => 1 | KNum b => b end.
Definition k2 (cap : Z) (same : option kind) (op : Z -> Z -> Z) (a b : option kind) : option kind :=
  kbind a (fun a => kbind b (fun b => match a, b with KBool, KBool => same | _, _ => knum cap (op (mag a) (mag b)) end)).
Definition NumKind (cap : Z) : Num (option kind) := {|
  nadd := k2 cap None Z.add; nsub := k2 cap None Z.add; nmul := k2 cap (Some KBool) Z.mul; ndiv := k2 cap (Some (KNum 0)) (fun _ _ => 0);
  nlit := fun z => knum cap (Z.abs z); nhalf := Some (KNum 0);
  nsq := fun a => kbind a (fun a => match a with KBool => None | KNum b => knum cap (b * b) end);
  nsqrt := fun a => kbind a (fun _ => Some (KNum 0)); nrsqrt := fun a => kbind a (fun _ => Some (KNum 0));
  npow := k2 cap (Some (KNum 0)) (fun _ _ => 0)
|}.
Definition UKind (cap : Z) : Ufuncs (option kind) :=
  mkUfuncs (fun a => kbind a (fun _ => Some (KNum 0))) (k2 cap (Some KBool) Z.max) (fun a => kbind a (fun _ => Some (KNum 0)))
    (fun a => kbind a (fun _ => Some (KNum 0))) (k2 cap (Some (KNum 0)) (fun _ _ => 0)).

Section Kinds.
Variable w : width.
Variable arctan2 : R -> R -> R.
Let cap := 2 ^ (bits w - 1) - 1.

Definition of_kind (k : kind) (v : bv) : Prop :=
  match k, v with KBool, NBool _ => True | KNum b, Other v => 0 <= b <= cap /\ moderate w b v | _, _ => False end.
Definition kept (k : option kind) (v : res bv) (r : res R) : Prop :=
  match k with
  | Some (KNum b) => 0 <= b <= cap /\ same_rel (of_kind (KNum b)) bvalue v r
  | Some KBool => same_rel (of_kind KBool) bvalue v r
  | None => True end.
Definition kept_pair (p : option kind * res bv) (r : res R) : Prop := kept (fst p) (snd p) r.

Lemma as_type_moderate b v (c : bool) : moderate w b v -> moderate w 1 (as_type_of v c).
Proof. destruct v as [z|t z|r]; unfold as_type_of; cbn; destruct c; destruct w; cbn; intuition lia. Qed.
Lemma as_type_value v c : value (as_type_of v c) = IZR (Z.b2z c).
Proof. reflexivity. Qed.

Lemma kept_2 same op (s : bool -> bool -> res bv) (f : nv -> nv -> res nv) (h : R -> R -> res R) m m' v v' r r' :
  (forall a b, 0 <= a -> 0 <= b -> 0 <= op a b) ->
  (forall x y, kept same (s x y) (h (IZR (Z.b2z x)) (IZR (Z.b2z y)))) ->
  (forall b c x y, 0 <= b <= cap -> 0 <= c <= cap -> op b c <= cap -> moderate w b x -> moderate w c y ->
     same_rel (moderate w (op b c)) value (f x y) (h (value x) (value y))) ->
  kept m v r -> kept m' v' r' -> kept (k2 cap same op m m') (b2 (mixed s f) v v') (bind r (fun a => bind r' (fun b => h a b))).
Proof.
  intros Hop Hs Hf Hv Hv'. destruct m as [k|]; [|exact I]. destruct m' as [k'|]; [|exact I].
  assert (C : 1 <= cap) by (pose proof (cap_pos w) as P; unfold cap; lia).
  assert (K : 0 <= mag k <= cap) by (destruct k; cbn in *; [lia|destruct Hv; lia]).
  assert (K' : 0 <= mag k' <= cap) by (destruct k'; cbn in *; [lia|destruct Hv'; lia]).
  assert (G : same_rel (of_kind k) bvalue v r) by (destruct k; [exact Hv|exact (proj2 Hv)]).
  assert (G' : same_rel (of_kind k') bvalue v' r') by (destruct k'; [exact Hv'|exact (proj2 Hv')]).
  assert (N : forall q, q = op (mag k) (mag k') -> (k = KBool -> k' = KBool -> False) ->
     kept (knum cap q) (b2 (mixed s f) v v') (bind r (fun a => bind r' (fun b => h a b)))).
  { intros q -> NB. unfold knum. destruct (Z.leb_spec (op (mag k) (mag k')) cap) as [L|]; [|exact I]. cbn [kept].
    assert (0 <= op (mag k) (mag k')) by (apply Hop; lia). split; [lia|].
    destruct v as [x|e]; cbn [same_rel] in G; [|rewrite G; reflexivity]. destruct G as [Ox ->].
    destruct v' as [y|e]; cbn [same_rel] in G'; [|rewrite G'; reflexivity]. destruct G' as [Oy ->]. cbn [b2 bind].
    assert (F : forall x y p q, p = value x -> q = value y -> moderate w (mag k) x -> moderate w (mag k') y ->
       same_rel (of_kind (KNum (op (mag k) (mag k')))) bvalue (rmap Other (f x y)) (h p q)).
    { intros x' y' p q -> -> Mx My. pose proof (Hf (mag k) (mag k') x' y' K K' L Mx My) as E.
      destruct (f x' y') as [z|e']; cbn in E |- *; [|exact E]. destruct E as [Mz ->]. repeat split; auto; lia. }
    destruct k, k', x, y; cbn [of_kind] in Ox, Oy; try contradiction; cbn [mixed bvalue]; try (now destruct NB); apply F; auto; cbn [mag];
      try (now apply (as_type_moderate _ v)); try tauto; try (eapply as_type_moderate; exact (proj2 Oy)); try (eapply as_type_moderate; exact (proj2 Ox)). }
  destruct k, k'; cbn [k2 kbind]; [|apply N; [reflexivity|discriminate]..]; [|apply N; [reflexivity|intros; discriminate]..].
  destruct v as [x|e]; cbn [same_rel] in G.
  2: { rewrite G. cbn. destruct same as [[]|]; cbn; auto. specialize (Hs true true). cbn in Hs. tauto. }
  destruct G as [Ox ->]. destruct v' as [y|e]; cbn [same_rel] in G'.
  2: { rewrite G'. cbn. destruct same as [[]|]; cbn; auto. specialize (Hs true true). cbn in Hs. tauto. }
  destruct G' as [Oy ->]. destruct x, y; try contradiction. cbn. apply Hs.
Qed.

Lemma flt_kept v r (h : R -> res R) m : kept m v r -> kept (kbind m (fun _ => Some (KNum 0))) (b1 (float_of h) v) (bind r h).
Proof.
  intros G. destruct m as [k|]; [|exact I]. cbn [kbind kept].
  assert (C : 127 <= cap) by exact (cap_pos w). split; [lia|].
  assert (E : same_rel (of_kind k) bvalue v r) by (destruct k; [exact G|exact (proj2 G)]).
  destruct v as [x|e]; cbn [same_rel] in E; [|rewrite E; reflexivity]. destruct E as [_ ->]. cbn. unfold float_of.
  destruct (h (bvalue x)); cbn; auto. repeat split; auto; lia.
Qed.

Lemma floats_kept (h : R -> R -> res R) x y : kept (Some (KNum 0)) (floats h x y) (h (IZR (Z.b2z x)) (IZR (Z.b2z y))).
Proof.
  assert (C : 127 <= cap) by exact (cap_pos w). cbn [kept]. split; [lia|]. unfold floats.
  destruct (h (IZR (Z.b2z x)) (IZR (Z.b2z y))); cbn; auto. repeat split; auto; lia.
Qed.

Lemma kinds_sound : NumRel (NumProd (NumKind cap) NumBool) NumPy (UProd (UKind cap) (Ufuncs_bool arctan2)) (Ufuncs_py arctan2) kept_pair.
Proof.
  assert (C : 127 <= cap) by exact (cap_pos w).
  split; cbn; intros; unfold kept_pair, both1, both2 in *; cbn [fst snd] in *.
  - apply (kept_2 None Z.add _ _ (fun a b => Ok (a + b)%R)); auto; try lia; [intros; exact I|]. intros b0 c x y Hb Hc L Mx My.
    apply (moderate_arith w Z.add Rplus _ b0 c); auto; try lia. apply plus_IZR.
  - apply (kept_2 None Z.add _ _ (fun a b => Ok (a - b)%R)); auto; try lia; [intros; exact I|]. intros b0 c x y Hb Hc L Mx My.
    apply (moderate_arith w Z.sub Rminus _ b0 c); auto; try lia. apply minus_IZR.
  - apply (kept_2 (Some KBool) Z.mul _ _ (fun a b => Ok (a * b)%R)); auto; try nia; [intros x y; cbn; split; auto; f_equal; rewrite <- mult_IZR; now destruct x, y|]. intros b0 c x y Hb Hc L Mx My.
    apply (moderate_arith w Z.mul Rmult _ b0 c); auto; try lia; [apply mult_IZR|]. intros i j Hi Hj. rewrite Z.abs_mul. apply Z.mul_le_mono_nonneg; lia.
  - apply (kept_2 (Some (KNum 0)) (fun _ _ => 0) _ _ py_div); auto; try lia; [intros; apply floats_kept|]. intros b0 c x y Hb Hc L Mx My. unfold divide.
    destruct (common_cases w b0 c x y) as [(t & E & _)|[(E & _)|E]]; auto; try lia; rewrite E; cbn; apply moderate_flt.
  - unfold knum. destruct (Z.leb_spec (Z.abs z) cap); [|exact I]. cbn. repeat split; auto; lia.
  - cbn. repeat split; auto; lia.
  - destruct (fst a) as [[|c]|]; cbn [kbind]; try exact I. unfold knum. destruct (Z.leb_spec (c * c) cap) as [L|]; [|exact I].
    destruct H as [Hc G]. cbn [kept]. split; [nia|]. destruct (snd a) as [x|e]; cbn [same_rel] in G; [|rewrite G; reflexivity].
    destruct G as [Ox ->]. destruct x as [|x]; [contradiction|]. destruct Ox as [_ Mx]. cbn -[Z.pow pow].
    destruct x as [z|t z|x]; cbn -[Z.pow pow] in *.
    + rewrite IZR_sq. repeat split; auto; nia.
    + destruct Mx as (M1 & M2 & M3). assert (Z.abs (z ^ 2) <= c * c) by (rewrite Z.pow_2_r, Z.abs_mul; apply Z.mul_le_mono_nonneg; lia).
      assert (F : fits t (z ^ 2) = true) by (apply (cap_fits w); auto; fold cap; lia).
      rewrite wrap_fits by exact F. rewrite IZR_sq. repeat split; auto; nia.
    + repeat split; auto; nia.
  - now apply flt_kept.
  - now apply flt_kept.
  - now apply flt_kept.
  - apply (kept_2 (Some KBool) Z.max _ _ (fun a b => Ok (Rmax a b))); auto; try lia.
    + intros x y. cbn. split; auto. f_equal. rewrite <- IZR_max. now destruct x, y.
    + intros b0 c x y Hb Hc L Mx My. apply (moderate_arith w Z.max Rmax _ b0 c); auto; try lia. apply IZR_max.
  - now apply flt_kept.
  - now apply flt_kept.
  - apply (kept_2 (Some (KNum 0)) (fun _ _ => 0) _ _ (fun a b => Ok (arctan2 a b))); auto; try lia; [intros; apply floats_kept|]. intros. cbn. auto.
Qed.
End Kinds.

(** The kinds of the arguments of a call, and whether the kinds guarantee the result *)
Definition kind_of (bound : Z) (v : bv) : option kind := Some (match v with NBool _ => KBool | Other _ => KNum bound end).
Definition kinds_ok (w : width) (f : fn) (ks : list (option kind)) : bool :=
  match run (NA := NumKind (2 ^ (bits w - 1) - 1)) (UKind (2 ^ (bits w - 1) - 1)) f ks with
  | Ok out => forallb (fun m => match m with Some _ => true | None => false end) out
  | Raise _ => true
  end.

Lemma run_kinds w arctan2 bound f args : 0 <= bound <= 2 ^ (bits w - 1) - 1 -> kinds_ok w f (map (kind_of bound) args) = true ->
  Forall (fun v => match v with NBool _ => True | Other v => moderate w bound v end) args ->
  rmap (map bvalue) (run_bool arctan2 f args) = run_py arctan2 f (map bvalue args).
Proof.
  intros B M H. set (cap := 2 ^ (bits w - 1) - 1) in *.
  set (pairs := map (fun v => (kind_of bound v, Ok v)) args : list (option kind * res bv)).
  assert (A1 : Forall2 (fun p a => fst p = a) pairs (map (kind_of bound) args)) by (unfold pairs; clear; induction args; cbn; constructor; auto).
  assert (A2 : Forall2 (fun p a => snd p = a) pairs (map Ok args)) by (unfold pairs; clear; induction args; cbn; constructor; auto).
  assert (A3 : Forall2 (kept_pair w) pairs (map Ok (map bvalue args))).
  { unfold pairs. clear - B H. induction H as [|v args Hv H IH]; cbn [map]; constructor; auto. unfold kept_pair. cbn [fst snd].
    destruct v; cbn; repeat split; auto; fold cap; lia. }
  pose proof (run_rel _ _ _ _ _ (prod_fst (NumKind cap) NumBool (UKind cap) (Ufuncs_bool arctan2)) f _ _ A1) as E1.
  pose proof (run_rel _ _ _ _ _ (prod_snd (NumKind cap) NumBool (UKind cap) (Ufuncs_bool arctan2)) f _ _ A2) as E2.
  pose proof (run_rel _ _ _ _ _ (kinds_sound w arctan2) f _ _ A3) as E3. fold cap in E3. unfold kinds_ok in M. fold cap in M. unfold res_rel in *.
  unfold run_bool, run_py.
  destruct (run (UProd (UKind cap) (Ufuncs_bool arctan2)) f pairs) as [ps|e].
  - destruct (run (UKind cap) f (map (kind_of bound) args)) as [ms|]; [|contradiction].
    destruct (run (Ufuncs_bool arctan2) f (map Ok args)) as [vs|]; [|contradiction].
    destruct (run (Ufuncs_py arctan2) f (map Ok (map bvalue args))) as [rs|]; [|contradiction]. cbn [bind].
    revert ms vs rs M E1 E2 E3. induction ps as [|[m v] ps IH]; intros ms vs rs M E1 E2 E3.
    + inversion E2. inversion E3. reflexivity.
    + destruct ms as [|m' ms]; [inversion E1|]. destruct vs as [|v' vs]; [inversion E2|]. destruct rs as [|r rs]; [inversion E3|].
      apply Forall2_cons_iff in E1 as [Em E1]. apply Forall2_cons_iff in E2 as [Ev E2]. apply Forall2_cons_iff in E3 as [G E3].
      cbn in M, Em, Ev. subst m' v'. apply andb_true_iff in M as [M1 M2]. specialize (IH _ _ _ M2 E1 E2 E3).
      destruct m as [k|]; [|discriminate].
      assert (E : same_rel (of_kind w k) bvalue v r) by (unfold kept_pair in G; destruct k; [exact G|exact (proj2 G)]).
      destruct v as [v|e]; cbn in *.
      * destruct E as [_ ->]. cbn. rewrite <- IH. now destruct (sequence vs).
      * now rewrite E.
  - destruct (run (Ufuncs_bool arctan2) f (map Ok args)); [contradiction|].
    destruct (run (Ufuncs_py arctan2) f (map Ok (map bvalue args))); [contradiction|]. cbn. now rewrite <- E2, <- E3.
Qed.

(** ** Which kinds do *)

From Verif Require Import Spec.Defined Spec.NpBool.
Local Open Scope nat_scope.

Fixpoint patterns (n : nat) : list (list bool) :=
  match n with O => [[]] | S n => flat_map (fun p => [true :: p; false :: p]) (patterns n) end.
Lemma patterns_all p : In p (patterns (length p)).
Proof.
  induction p as [|b p IH]; cbn [length patterns]; [now left|]. apply in_flat_map. exists p. split; auto. destruct b; cbn; auto.
Qed.

Definition is_bool (v : bv) : bool := match v with NBool _ => true | Other _ => false end.
Definition clash_free (f : fn) (p : list bool) : bool :=
  forallb (fun s => existsb (fun i => match nth_error p i with Some b => negb b | None => false end) s) (clashes f).
Definition kinds (w : width) (f : fn) (p : list bool) : list (option kind) :=
  map (fun b : bool => if b then Some KBool else Some (KNum (limit w f))) p.

Lemma clash_free_ok w f p : length p = arity f -> clash_free f p = true -> kinds_ok w f (kinds w f p) = true.
Proof.
  assert (G : forallb (fun p => implb (clash_free f p) (kinds_ok w f (kinds w f p))) (patterns (arity f)) = true)
    by (destruct f, w; try destruct one_start; vm_compute; reflexivity).
  intros L C. rewrite forallb_forall in G. specialize (G p). rewrite <- L in G. specialize (G (patterns_all p)). rewrite C in G. exact G.
Qed.
Lemma wrong_arity w f ks : length ks <> arity f -> kinds_ok w f ks = true.
Proof.
  intros H. unfold kinds_ok.
  do 8 (destruct ks as [|? ks]; [destruct f; try reflexivity; exfalso; apply H; reflexivity|]).
  destruct f; reflexivity.
Qed.

Lemma run_booleans w arctan2 f args : no_clash f args -> others_moderate w f args ->
  plain_numbers (run_bool arctan2 f args) = run_py arctan2 f (map bvalue args).
Proof.
  intros N M. apply (run_kinds w arctan2 (limit w f)).
  - apply limit_cap.
  - replace (map (kind_of (limit w f)) args) with (kinds w f (map is_bool args)).
    2: { unfold kinds. rewrite map_map. apply map_ext. now intros [|]. }
    destruct (Nat.eq_dec (length args) (arity f)) as [L|L].
    + apply clash_free_ok. now rewrite map_length. apply forallb_forall. intros s Hs. destruct (N s Hs) as (i & v & Hi & E).
      apply existsb_exists. exists i. split; auto. now rewrite (map_nth_error is_bool i args E).
    + apply wrong_arity. unfold kinds. now rewrite !map_length.
  - apply Forall_forall. intros [|v] Hv; auto.
Qed.

(** Booleans in the data only *)
Lemma run_boolean_data w arctan2 f k args : data_count f = Some k -> prior_of_numbers k args -> others_moderate w f args -> length args = arity f ->
  (f = F_binomial_beta -> forall n x, nth_error args 0 = Some (NBool n) -> nth_error args 1 = Some (NBool x) -> False) ->
  plain_numbers (run_bool arctan2 f args) = run_py arctan2 f (map bvalue args).
Proof.
  intros D P M L B. apply (run_booleans w); auto.
  assert (G : forall i, k <= i < arity f -> exists v, nth_error args i = Some (Other v)).
  { intros i [H1 H2]. rewrite <- L in H2. apply nth_error_Some in H2. destruct (nth_error args i) as [[b|v]|] eqn:E; try congruence.
    - now destruct (P i b H1). - now exists v. }
  assert (Last : forall s i, In i s -> k <= i < arity f -> exists i v, In i s /\ nth_error args i = Some (Other v)).
  { intros s i Hi H. destruct (G i H) as (v & E). eauto. }
  intros s Hs. destruct f; try discriminate D; injection D as <-; cbn [clashes] in Hs;
    repeat (destruct Hs as [<-|Hs]; [try (match goal with |- exists i v, In i ?l /\ _ => let j := eval compute in (last l 0) in apply (Last l j); cbn; [tauto|lia] end)|]);
    try destruct Hs.
  destruct args as [|[n|v] [|[x|v'] args]]; cbn in L; try discriminate.
  - now destruct (B eq_refl n x).
  - exists 1, v'. cbn; auto.
  - exists 0, v. cbn; auto.
  - exists 0, v. cbn; auto.
Qed.

Lemma both_booleans arctan2 n x a b : run_bool arctan2 F_binomial_beta [NBool n; NBool x; Other (Flt a); Other (Flt b)] = Raise no_subtraction.
Proof. reflexivity. Qed.
Lemma or_not_plus arctan2 :
  run_bool arctan2 F_poisson_gamma [NBool true; Other (PInt 1); NBool true; Other (PInt 1)] = Ok [NBool true; Other (PInt 2)] /\
  run_py arctan2 F_poisson_gamma [1; 1; 1; 1]%R = Ok [2; 2]%R.
Proof. split; [reflexivity|]. unfold run_py. cbn. repeat f_equal; lra. Qed.

(** ** Every clash is one *)

Lemma nth_error_map_inv {A B} (g : A -> B) l i b : nth_error (map g l) i = Some b -> exists a, nth_error l i = Some a /\ g a = b.
Proof. rewrite nth_error_map. destruct (nth_error l i) as [a|]; cbn; [|discriminate]. intros E. injection E as <-. eauto. Qed.
Lemma nth_error_seq' i n : i < n -> nth_error (seq 0 n) i = Some i.
Proof. intros H. rewrite (nth_error_nth' (seq 0 n) 0) by (now rewrite seq_length). now rewrite seq_nth. Qed.
Lemma nth_error_seq i n : nth_error (seq 0 n) i = if Nat.ltb i n then Some i else None.
Proof. destruct (Nat.ltb_spec i n). now apply nth_error_seq'. apply nth_error_None. now rewrite seq_length. Qed.

Definition witness (f : fn) (s : list nat) : list bv :=
  map (fun i => if existsb (Nat.eqb i) s then NBool true else Other (PInt 1)) (seq 0 (arity f)).
(** The results differ in some place, or only one is a result *)
Definition differ (a b : res (list R)) : Prop :=
  match a, b with Ok l, Ok l' => exists i, nth i l 0%R <> nth i l' 0%R | Raise e, Raise e' => e <> e' | _, _ => True end.
Lemma differ_neq a b : differ a b -> a <> b.
Proof. intros H ->. destruct b; cbn in H; [destruct H as [i H]|]; now apply H. Qed.


Lemma clash_differs arctan2 f s : In s (clashes f) -> 2 <= length s -> ~ In f [F_normal_nig; F_normal_ng; F_log_normal_nig; F_log_normal_ng; F_pareto_gamma] ->
  exists args, (forall i, (exists b, nth_error args i = Some (NBool b)) <-> In i s) /\
  plain_numbers (run_bool arctan2 f args) <> run_py arctan2 f (map bvalue args).
Proof.
  intros H L N. exists (witness f s). split.
  - assert (B : Forall (fun i => i < arity f) s).
    { apply Forall_forall. intros i Hi. destruct f; cbn [clashes] in H; try contradiction;
        repeat (destruct H as [<-|H]; [cbn in Hi |- *; lia|]); contradiction. }
    intros i. unfold witness. split.
    + intros [b E]. apply nth_error_map_inv in E. destruct E as (j & Ej & E).
      assert (j = i). { pose proof Ej as Ej'. apply nth_error_In, in_seq in Ej'. rewrite nth_error_seq in Ej. destruct (Nat.ltb i (arity f)); congruence. }
      subst j. destruct (existsb (Nat.eqb i) s) eqn:X; [|discriminate]. apply existsb_exists in X. destruct X as (k & Hk & Ek). apply Nat.eqb_eq in Ek. now subst.
    + intros Hi. exists true. rewrite Forall_forall in B. specialize (B i Hi).
      rewrite (map_nth_error _ i _ (nth_error_seq' i (arity f) B)).
      replace (existsb (Nat.eqb i) s) with true; auto. symmetry. apply existsb_exists. exists i. split; auto. apply Nat.eqb_refl.
  - apply differ_neq.
    destruct f; cbn [clashes] in H; try contradiction; try destruct one_start; try (exfalso; apply N; cbn; tauto);
    repeat (destruct H as [<-|H]; [cbn [length] in L; try (exfalso; lia)|]); try contradiction;
    cbv -[Rplus Rmult Rminus Rdiv Rinv IZR pow Req_EM_T nth Rmax];
    first [exact I | exists 0; cbn; lra | exists 1; cbn; lra | exists 2; cbn; lra | exists 3; cbn; lra].
Qed.

(** A boolean takes the type of the integer it is added to, and wraps around with it. *)
Lemma promote_same s : promote s s = Some s.
Proof. destruct s as [[] []]; reflexivity. Qed.
Lemma bernoulli_wraps arctan2 x s a t b :
  exists va vb, run_bool arctan2 F_bernoulli_beta [NBool x; Other (NInt s a); Other (NInt t b)] = Ok [Other va; Other vb] /\
  right_modulo s va (IZR (a + Z.b2z x)) /\ exists z, va = NInt s z.
Proof.
  exists (NInt s (wrap s (a + Z.b2z x))).
  assert (E : exists vb, run_bool arctan2 F_bernoulli_beta [NBool x; Other (NInt s a); Other (NInt t b)] = Ok [Other (NInt s (wrap s (a + Z.b2z x))); Other vb]).
  { unfold run_bool. cbn - [wrap promote fits]. unfold arith, common. cbn - [wrap promote fits]. rewrite promote_same.
    replace (fits int64 1) with true by reflexivity. cbn - [wrap promote fits].
    destruct (promote t int64) as [u|]; cbn - [wrap]; eexists; reflexivity. }
  destruct E as [vb E]. exists vb. split; [exact E|]. split; [|eauto]. cbn [right_modulo]. split; [reflexivity|]. split; [apply wrap_range|].
  destruct (wrap_mod s (a + Z.b2z x)) as [k Hk]. exists k. f_equal. exact Hk.
Qed.
