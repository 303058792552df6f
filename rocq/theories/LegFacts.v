(** Integrals of Legendre polynomials. *)
From Coq Require Import Reals Lra Lia.
From Verif Require Import SpecScat.
From Coquelicot Require Import Coquelicot.
From Verif Require Import ExpInt.
Open Scope R_scope.

Lemma nz2 n : INR n + 2 <> 0. Proof. pose proof (pos_INR n). lra. Qed.
Lemma bonnet n x : (INR n + 2) * legP (S (S n)) x = (2 * INR n + 3) * x * legP (S n) x - (INR n + 1) * legP n x.
Proof. rewrite legP_SS. field. apply nz2. Qed.
Lemma legP_ex_derive n : forall x, ex_derive (legP n) x.
Proof.
  assert (H : forall x, ex_derive (legP n) x /\ ex_derive (legP (S n)) x).
  { induction n as [|n IH]; intros x.
    - split; [apply (ex_derive_const 1)|apply ex_derive_id].
    - destruct (IH x) as [A B]. split; [exact B|].
      apply (ex_derive_ext (fun x => ((2 * INR n + 3) * x * legP (S n) x - (INR n + 1) * legP n x) / (INR n + 2))).
      + intros t. symmetry. apply legP_SS.
      + auto_derive. tauto. }
  intros x. apply H.
Qed.
Lemma legP_cont n x : continuous (legP n) x. Proof. apply edc, legP_ex_derive. Qed.
Lemma cont_mul (f g : R -> R) x : continuous f x -> continuous g x -> continuous (fun x => f x * g x) x.
Proof. intros. now apply (continuous_mult f g). Qed.
Lemma cont_add (f g : R -> R) x : continuous f x -> continuous g x -> continuous (fun x => f x + g x) x.
Proof. intros. now apply (continuous_plus f g). Qed.
Lemma cont_pow n x : continuous (fun x : R => x ^ n) x. Proof. apply edc. auto_derive. exact I. Qed.
Lemma cont_const (c x : R) : continuous (fun _ => c) x. Proof. apply continuous_const. Qed.
Lemma cont_id (x : R) : continuous (fun x => x) x. Proof. apply continuous_id. Qed.
Lemma int_cont (f : R -> R) a b : (forall x, continuous f x) -> is_RInt f a b (RInt f a b).
Proof. intros H. apply rint_ok. now apply cont_int. Qed.
Lemma is_lin2 (f g : R -> R) a b c d F G : is_RInt f a b F -> is_RInt g a b G -> is_RInt (fun x => c * f x + d * g x) a b (c * F + d * G).
Proof.
  intros HF HG. apply (is_RInt_scal f a b c) in HF. apply (is_RInt_scal g a b d) in HG.
  pose proof (is_RInt_plus _ _ _ _ _ _ HF HG) as H. exact H.
Qed.

(** the half-range moments: int_0^1 x^i P_n(x) dx *)
Definition moment (i n : nat) : R := RInt (fun x => x ^ i * legP n x) 0 1.
Lemma is_moment i n : is_RInt (fun x => x ^ i * legP n x) 0 1 (moment i n).
Proof. apply int_cont. intros x. apply cont_mul; [apply cont_pow|apply legP_cont]. Qed.
Lemma moment_rec i n : (INR n + 2) * moment i (S (S n)) = (2 * INR n + 3) * moment (S i) (S n) - (INR n + 1) * moment i n.
Proof.
  pose proof (is_lin2 _ _ _ _ (2 * INR n + 3) (- (INR n + 1)) _ _ (is_moment (S i) (S n)) (is_moment i n)) as A.
  pose proof (is_lin2 _ _ _ _ (INR n + 2) 0 _ _ (is_moment i (S (S n))) (is_moment i n)) as B.
  assert (C : is_RInt (fun x => (2 * INR n + 3) * (x ^ S i * legP (S n) x) + - (INR n + 1) * (x ^ i * legP n x)) 0 1
     ((INR n + 2) * moment i (S (S n)) + 0 * moment i n)).
  { apply (is_RInt_ext (fun x => (INR n + 2) * (x ^ i * legP (S (S n)) x) + 0 * (x ^ i * legP n x))); [|exact B].
    intros x _. match goal with |- @eq _ ?a ?b => change (@eq R a b) end.
    transitivity (x ^ i * ((INR n + 2) * legP (S (S n)) x)); [ring|]. rewrite bonnet. simpl. ring. }
  apply rint_val in A. apply rint_val in C. rewrite A in C. lra.
Qed.
Lemma moment_0 i : moment i 0 = / (INR i + 1).
Proof.
  unfold moment. apply rint_val. apply (is_RInt_ext (fun x => x ^ i)); [intros x _; rewrite legP_0; symmetry; apply Rmult_1_r|].
  replace (INR i + 1) with (INR (i + 1)) by (rewrite plus_INR; simpl; ring). apply is_pow.
Qed.
Lemma moment_1 i : moment i 1 = / (INR i + 2).
Proof.
  unfold moment. apply rint_val. apply (is_RInt_ext (fun x => x ^ S i)); [intros x _; rewrite legP_1; apply Rmult_comm|].
  replace (INR i + 2) with (INR (S i + 1)) by (rewrite plus_INR, S_INR; simpl; ring). apply is_pow.
Qed.
