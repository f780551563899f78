(** The simplex, integrals over it, and the Dirichlet and multinomial families. *)

From Coq Require Import Reals List.
From Coquelicot Require Import Coquelicot.
From Verif Require Import Spec.Special Spec.Bayes.
From Coq Require Import List.
Import ListNotations.
Open Scope R_scope.

(** Points with [S n] positive coordinates adding up to [s]. *)
Definition on_simplex (n : nat) (s : R) (p : list R) : Prop :=
  length p = S n /\ Forall (fun x => 0 < x) p /\ sumR p = s.

(** [v] is the integral of [f] over that simplex (with respect to the first [n]
    coordinates; the last one is what remains): iterated improper integrals. *)
Fixpoint is_simplex_int (n : nat) (s : R) (f : list R -> R) (v : R) : Prop :=
  match n with
  | O => v = f [s]
  | S n' => exists g : R -> R,
      (forall x, 0 < x < s -> is_simplex_int n' (s - x) (fun p => f (x :: p)) (g x)) /\
      is_RInt_gen g (at_right 0) (at_left s) v
  end.

(** scipy.stats.dirichlet: Gamma(sum alpha) / prod Gamma(alpha_i) prod p_i^(alpha_i - 1) *)
Definition powers (p e : list R) : R := prodR (map (fun q => Rpower (fst q) (snd q)) (combine p e)).
Definition dirichlet_pdf (alpha p : list R) : R :=
  Gamma_fun (sumR alpha) / prodR (map Gamma_fun alpha) * powers p (map (fun a => a - 1) alpha).

(** scipy.stats.multinomial(n = sum x, p): n! / prod x_i! prod p_i^x_i *)
Definition multinomial_coef (x : list nat) : R := INR (fact (sumN x)) / prodR (map (fun k => INR (fact k)) x).
Definition multinomial_pmf (p : list R) (x : list nat) : R :=
  multinomial_coef x * prodR (map (fun q => fst q ^ snd q) (combine p x)).

(** One categorical observation: the probability of its category. *)
Definition categorical_pmf (p : list R) (k : nat) : R := nth k p 0.

(** scipy.stats.dirichlet_multinomial(alpha, n): logpmf is
    loggamma(A) + loggamma(n + 1) - loggamma(n + A) + sum_i loggamma(x_i + a_i) - loggamma(a_i) - loggamma(x_i + 1),
    and the mass is 0 unless the counts add up to n. *)
Definition dirichlet_multinomial_pmf (alpha : list R) (n : nat) (x : list nat) : R :=
  if Nat.eqb (sumN x) n then
    Gamma_fun (sumR alpha) * Gamma_fun (INR n + 1) / Gamma_fun (INR n + sumR alpha) *
    prodR (map (fun q => Gamma_fun (INR (snd q) + fst q) / (Gamma_fun (fst q) * Gamma_fun (INR (snd q) + 1))) (combine alpha x))
  else 0.

(** Bayes' rule on the simplex *)
Definition simplex_posterior (n : nat) (prior lik post : list R -> R) : Prop :=
  exists evidence, 0 < evidence /\ is_simplex_int n 1 (fun p => prior p * lik p) evidence /\
    forall p, on_simplex n 1 p -> post p = prior p * lik p / evidence.

(** The counts of each of the categories 0 .. n in a list of categories *)
Definition counts (n : nat) (obs : list nat) : list nat := map (fun k => count_occ Nat.eq_dec obs k) (seq 0 (S n)).

(** Adding up count vectors of [S n] categories *)
Definition total (n : nat) (data : list (list nat)) : list nat :=
  map (fun k => sumN (map (fun x => nth k x 0%nat) data)) (seq 0 (S n)).

(** All vectors of [m] counts adding up to [n] *)
Fixpoint compositions (m n : nat) : list (list nat) :=
  match m with
  | O => match n with O => [[]] | S _ => [] end
  | S m' => flat_map (fun k => map (cons k) (compositions m' (n - k))) (seq 0 (S n))
  end.
