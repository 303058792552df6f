(** scipy.integrate.simps on equidistant points (external library, used by hemreflect), and its
    convergence for continuous functions. *)
From Coquelicot Require Import Coquelicot.
From Coq Require Import Reals Lia Lra List.
Open Scope R_scope.

(** ** The rule.
    [simpsR old N h g]: N points at distance h with values g 0 ... g (N-1).
    An even number of intervals: the composite Simpson rule.  An odd number of intervals: scipy < 1.11
    ([old]) averages the results of using the trapezoidal rule on the last and on the first interval;
    later versions use Cartwright's correction on the last interval. *)
Fixpoint basicR (h : R) (g : nat -> R) (start n : nat) : R :=
  match n with
  | O => 0
  | S m => basicR h g start m + h / 3 * (g (start + 2 * m)%nat + 4 * g (start + 2 * m + 1)%nat + g (start + 2 * m + 2)%nat)
  end.
Definition trapR (h : R) (g : nat -> R) (k : nat) : R := h / 2 * (g (S k) + g k).
Definition simpsR (old : bool) (N : nat) (h : R) (g : nat -> R) : R :=
  let m := Nat.div2 (N - 1) in
  if Nat.odd N then basicR h g 0 m
  else if orb old (N =? 2)%nat then ((trapR h g (N - 2) + trapR h g 0) / 2 + (basicR h g 0 m + basicR h g 1 m) / 2)
  else basicR h g 0 m + h * (5 / 12 * g (N - 1)%nat + 2 / 3 * g (N - 2)%nat - 1 / 12 * g (N - 3)%nat).

(** ** Bounds *)
Section Bound.
  Context (h M : R) (g : nat -> R) (N : nat).
  Hypothesis (Hh : 0 <= h) (Hg : forall k, (k < N)%nat -> Rabs (g k) <= M).
  Lemma M_pos : (0 < N)%nat -> 0 <= M.
  Proof. intros H. eapply Rle_trans; [apply Rabs_pos|]. apply (Hg 0 H). Qed.
  Lemma basic_bound start n : (start + 2 * n < N)%nat -> Rabs (basicR h g start n) <= INR (2 * n) * h * M.
  Proof.
    induction n as [|n IH]; intros H.
    - simpl. rewrite Rabs_R0. lra.
    - cbn [basicR]. eapply Rle_trans; [apply Rabs_triang|]. specialize (IH ltac:(lia)).
      replace (INR (2 * S n)) with (INR (2 * n) + 2) by (replace (2 * S n)%nat with (S (S (2 * n))) by lia; rewrite !S_INR; ring).
      rewrite Rabs_mult, (Rabs_pos_eq (h / 3)) by lra.
      pose proof (Hg (start + 2 * n) ltac:(lia)) as A. pose proof (Hg (start + 2 * n + 1) ltac:(lia)) as B. pose proof (Hg (start + 2 * n + 2) ltac:(lia)) as C.
      assert (Rabs (g (start + 2 * n)%nat + 4 * g (start + 2 * n + 1)%nat + g (start + 2 * n + 2)%nat) <= 6 * M).
      { apply Rabs_le_between in A, B, C. apply Rabs_le. lra. }
      assert (h / 3 * Rabs (g (start + 2 * n)%nat + 4 * g (start + 2 * n + 1)%nat + g (start + 2 * n + 2)%nat) <= h / 3 * (6 * M)) by (apply Rmult_le_compat_l; lra).
      lra.
  Qed.
  Lemma trap_bound k : (S k < N)%nat -> Rabs (trapR h g k) <= h * M.
  Proof.
    intros H. unfold trapR. pose proof (Hg k ltac:(lia)) as A. pose proof (Hg (S k) H) as B. apply Rabs_le_between in A, B.
    rewrite Rabs_mult, (Rabs_pos_eq (h / 2)) by lra.
    assert (Rabs (g (S k) + g k) <= 2 * M) by (apply Rabs_le; lra).
    assert (h / 2 * Rabs (g (S k) + g k) <= h / 2 * (2 * M)) by (apply Rmult_le_compat_l; lra). lra.
  Qed.
End Bound.
Lemma odd_div2 N : Nat.odd N = true -> N = (2 * Nat.div2 (N - 1) + 1)%nat.
Proof. intros H. apply Nat.odd_spec in H. destruct H as [k ->]. replace (2 * k + 1 - 1)%nat with (2 * k)%nat by lia. rewrite Nat.div2_double. lia. Qed.
Lemma even_div2 N : Nat.odd N = false -> (2 <= N)%nat -> N = (2 * Nat.div2 (N - 1) + 2)%nat.
Proof.
  intros H H2. rewrite <- Nat.negb_even in H. apply Bool.negb_false_iff, Nat.even_spec in H. destruct H as [k ->].
  destruct k as [|k]; [lia|]. replace (2 * S k - 1)%nat with (S (2 * k)) by lia. rewrite Nat.div2_succ_double. lia.
Qed.
(** |rule| <= 2 (total length) max|values| *)
Lemma simps_bound old N h g M : (2 <= N)%nat -> 0 <= h -> (forall k, (k < N)%nat -> Rabs (g k) <= M) ->
  Rabs (simpsR old N h g) <= 2 * (INR (N - 1) * h) * M.
Proof.
  intros HN Hh Hg. pose proof (M_pos M g N Hg ltac:(lia)) as HM. unfold simpsR. set (m := Nat.div2 (N - 1)).
  pose proof (pos_INR (2 * m)) as Pm.
  destruct (Nat.odd N) eqn:Eo.
  - pose proof (odd_div2 N Eo) as E. fold m in E. pose proof (basic_bound h M g N Hh Hg 0 m ltac:(lia)) as B.
    replace (N - 1)%nat with (2 * m)%nat by lia. assert (0 <= INR (2 * m) * h * M) by (repeat apply Rmult_le_pos; assumption). lra.
  - pose proof (even_div2 N Eo HN) as E. fold m in E.
    assert (EI : INR (N - 1) = INR (2 * m) + 1) by (replace (N - 1)%nat with (S (2 * m)) by lia; apply S_INR).
    pose proof (basic_bound h M g N Hh Hg 0 m ltac:(lia)) as B0. rewrite EI.
    assert (P1 : 0 <= INR (2 * m) * h * M) by (repeat apply Rmult_le_pos; assumption). assert (P2 : 0 <= h * M) by now apply Rmult_le_pos.
    destruct (orb old (N =? 2)%nat) eqn:Ea.
    + pose proof (basic_bound h M g N Hh Hg 1 m ltac:(lia)) as B1.
      pose proof (trap_bound h M g N Hh Hg (N - 2) ltac:(lia)) as T1. pose proof (trap_bound h M g N Hh Hg 0 ltac:(lia)) as T0.
      apply Rabs_le_between in B0, B1, T0, T1. apply Rabs_le. lra.
    + assert (3 < N)%nat. { destruct old; [discriminate|]. apply Nat.eqb_neq in Ea. lia. }
      pose proof (Hg (N - 1)%nat ltac:(lia)) as A. pose proof (Hg (N - 2)%nat ltac:(lia)) as B. pose proof (Hg (N - 3)%nat ltac:(lia)) as C.
      assert (K : Rabs (5 / 12 * g (N - 1)%nat + 2 / 3 * g (N - 2)%nat - 1 / 12 * g (N - 3)%nat) <= 7 / 6 * M) by (apply Rabs_le_between in A, B, C; apply Rabs_le; lra).
      eapply Rle_trans; [apply Rabs_triang|]. rewrite Rabs_mult, (Rabs_pos_eq h) by lra.
      pose proof (Rmult_le_compat_l h _ _ Hh K). lra.
Qed.
(** the rule is linear *)
Lemma basic_minus h g g' start n : basicR h (fun k => g k - g' k) start n = basicR h g start n - basicR h g' start n.
Proof. induction n as [|n IH]; cbn [basicR]; [ring|]. rewrite IH. ring. Qed.
Lemma simps_minus old N h g g' : simpsR old N h (fun k => g k - g' k) = simpsR old N h g - simpsR old N h g'.
Proof. unfold simpsR, trapR. rewrite !basic_minus. destruct (Nat.odd N); [reflexivity|]. destruct (orb old (N =? 2)%nat); field. Qed.
Lemma basic_ext h g g' start n N : (start + 2 * n < N)%nat -> (forall k, (k < N)%nat -> g k = g' k) -> basicR h g start n = basicR h g' start n.
Proof. intros H E. induction n as [|n IH]; cbn [basicR]; [reflexivity|]. rewrite IH, !E by lia. reflexivity. Qed.
Lemma simps_ext old N h g g' : (2 <= N)%nat -> (forall k, (k < N)%nat -> g k = g' k) -> simpsR old N h g = simpsR old N h g'.
Proof.
  intros HN E. unfold simpsR, trapR. set (m := Nat.div2 (N - 1)). destruct (Nat.odd N) eqn:Eo.
  - pose proof (odd_div2 N Eo). apply (basic_ext h g g' 0 m N); [lia|assumption].
  - pose proof (even_div2 N Eo HN) as F. fold m in F. rewrite (basic_ext h g g' 0 m N) by (try lia; assumption).
    destruct (orb old (N =? 2)%nat) eqn:Ea.
    + rewrite (basic_ext h g g' 1 m N) by (try lia; assumption). rewrite !E by lia. reflexivity.
    + assert (3 < N)%nat by (destruct old; [discriminate|]; apply Nat.eqb_neq in Ea; lia). rewrite !E by lia. reflexivity.
Qed.

(** ** Convergence *)
Section Conv.
  Context (f : R -> R) (h : R) (N : nat) (w : R).
  Let b : R := INR (N - 1) * h.
  Hypothesis (Hh : 0 <= h) (HN : (2 <= N)%nat).
  Hypothesis (If : ex_RInt f 0 b).
  (** [w] bounds the variation of f over distances up to 3h *)
  Hypothesis (Hw : forall x y, 0 <= x <= b -> 0 <= y <= b -> Rabs (x - y) <= 3 * h -> Rabs (f x - f y) <= w).
  Let g (k : nat) : R := f (INR k * h).
  Lemma grid_le k l : (k <= l)%nat -> INR k * h <= INR l * h.
  Proof. intros H. apply Rmult_le_compat_r; [assumption|]. now apply le_INR. Qed.
  Lemma grid_in k : (k < N)%nat -> 0 <= INR k * h <= b.
  Proof. intros H. split; [apply Rmult_le_pos; [apply pos_INR|assumption]|]. unfold b. apply grid_le. lia. Qed.
  Lemma sub_int k l : (k <= l < N)%nat -> ex_RInt f (INR k * h) (INR l * h).
  Proof.
    intros H. apply (ex_RInt_Chasles_2 (V := R_CompleteNormedModule) f 0); [split; [apply grid_in; lia|apply grid_le; lia]|].
    apply (ex_RInt_Chasles_1 (V := R_CompleteNormedModule) f 0 _ b); [|exact If]. apply grid_in. lia.
  Qed.
  Lemma w_pos : 0 <= w.
  Proof. eapply Rle_trans; [apply Rabs_pos|]. pose proof (grid_in 0 ltac:(lia)). apply (Hw _ _ H H). rewrite Rminus_diag_eq, Rabs_R0 by reflexivity. lra. Qed.
  (** one panel: if [c] is close to every value of f on the panel *)
  Lemma panel k l c e : (k <= l < N)%nat -> 0 <= e -> (forall x, INR k * h <= x <= INR l * h -> Rabs (c - f x) <= e) ->
    Rabs ((INR l - INR k) * h * c - RInt f (INR k * h) (INR l * h)) <= (INR l - INR k) * h * e.
  Proof.
    intros H He Hc. pose proof (grid_le k l ltac:(lia)) as G. pose proof (sub_int k l H) as I.
    assert (E : (INR l - INR k) * h * c = RInt (fun _ => c) (INR k * h) (INR l * h)).
    { rewrite RInt_const. unfold scal. cbn. unfold mult. cbn. ring. }
    rewrite E. assert (Ic : ex_RInt (fun _ : R => c) (INR k * h) (INR l * h)) by apply ex_RInt_const.
    pose proof (RInt_minus (fun _ => c) f _ _ Ic I) as D. unfold minus, plus, opp in D. cbn in D.
    replace (RInt (fun _ => c) (INR k * h) (INR l * h) - RInt f (INR k * h) (INR l * h)) with (RInt (fun x => c + - f x) (INR k * h) (INR l * h)) by (rewrite D; reflexivity).
    replace ((INR l - INR k) * h * e) with ((INR l * h - INR k * h) * e) by ring.
    apply (abs_RInt_le_const (fun x => c + - f x)).
    - exact G.
    - apply (ex_RInt_minus (V := R_CompleteNormedModule) (fun _ => c) f _ _ Ic I).
    - intros x Hx. apply Hc. exact Hx.
  Qed.
  Lemma near k l j x : (k <= l < N)%nat -> (l <= k + 2)%nat -> (k <= j + 1)%nat -> (j <= l)%nat -> INR k * h <= x <= INR l * h -> Rabs (g j - f x) <= w.
  Proof.
    intros H Hl Hj Hj' Hx. unfold g. pose proof (grid_in j ltac:(lia)). pose proof (grid_in k ltac:(lia)). pose proof (grid_in l ltac:(lia)).
    apply Hw; [assumption|lra|].
    assert (A : INR k <= INR j + 1) by (rewrite <- S_INR; apply le_INR; lia). assert (B : INR j <= INR l) by (apply le_INR; lia).
    assert (C : INR l <= INR k + 2). { replace (INR k + 2) with (INR (k + 2)) by (rewrite plus_INR; simpl; ring). apply le_INR. lia. }
    assert (INR k * h <= INR j * h + h) by (replace (INR j * h + h) with ((INR j + 1) * h) by ring; now apply Rmult_le_compat_r).
    assert (INR j * h <= INR l * h) by (now apply Rmult_le_compat_r).
    assert (INR l * h <= INR k * h + 2 * h) by (replace (INR k * h + 2 * h) with ((INR k + 2) * h) by ring; now apply Rmult_le_compat_r).
    apply Rabs_le. lra.
  Qed.
  Lemma basic_err start n : (start + 2 * n < N)%nat ->
    Rabs (basicR h g start n - RInt f (INR start * h) (INR (start + 2 * n) * h)) <= INR (2 * n) * h * w.
  Proof.
    induction n as [|n IH]; intros H.
    - cbn [basicR]. rewrite Nat.mul_0_r, Nat.add_0_r, RInt_point. unfold zero. cbn. rewrite Rminus_0_r, Rabs_R0. simpl. lra.
    - specialize (IH ltac:(lia)). cbn [basicR].
      set (k := (start + 2 * n)%nat) in *. replace (start + 2 * S n)%nat with (k + 2)%nat by (unfold k; lia).
      assert (Ch : RInt f (INR start * h) (INR (k + 2) * h) = RInt f (INR start * h) (INR k * h) + RInt f (INR k * h) (INR (k + 2) * h)).
      { symmetry. apply (RInt_Chasles f); apply sub_int; unfold k; lia. }
      rewrite Ch.
      assert (Ek : INR (k + 2) = INR k + 2) by (rewrite plus_INR; simpl; ring).
      pose proof (panel k (k + 2) ((g k + 4 * g (k + 1)%nat + g (k + 2)%nat) / 6) w ltac:(lia) w_pos) as P.
      assert (Q : Rabs ((INR (k + 2) - INR k) * h * ((g k + 4 * g (k + 1)%nat + g (k + 2)%nat) / 6) - RInt f (INR k * h) (INR (k + 2) * h)) <= (INR (k + 2) - INR k) * h * w).
      { apply P. intros x Hx. pose proof (near k (k + 2) k x ltac:(lia) ltac:(lia) ltac:(lia) ltac:(lia) Hx) as A.
        pose proof (near k (k + 2) (k + 1) x ltac:(lia) ltac:(lia) ltac:(lia) ltac:(lia) Hx) as B.
        pose proof (near k (k + 2) (k + 2) x ltac:(lia) ltac:(lia) ltac:(lia) ltac:(lia) Hx) as C.
        apply Rabs_le_between in A, B, C. apply Rabs_le. lra. }
      clear P. rewrite Ek in Q at 1 3. replace (INR k + 2 - INR k) with 2 in Q by ring.
      assert (EN : INR (2 * S n) = INR (2 * n) + 2) by (replace (2 * S n)%nat with (S (S (2 * n))) by lia; rewrite !S_INR; ring).
      rewrite EN.
      apply Rabs_le_between in IH, Q. apply Rabs_le. lra.
  Qed.
  Lemma trap_err k : (S k < N)%nat -> Rabs (trapR h g k - RInt f (INR k * h) (INR (S k) * h)) <= h * w.
  Proof.
    intros H. pose proof (panel k (S k) ((g (S k) + g k) / 2) w ltac:(lia) w_pos) as P.
    assert (Q : Rabs ((INR (S k) - INR k) * h * ((g (S k) + g k) / 2) - RInt f (INR k * h) (INR (S k) * h)) <= (INR (S k) - INR k) * h * w).
    { apply P. intros x Hx. pose proof (near k (S k) k x ltac:(lia) ltac:(lia) ltac:(lia) ltac:(lia) Hx) as A.
      pose proof (near k (S k) (S k) x ltac:(lia) ltac:(lia) ltac:(lia) ltac:(lia) Hx) as B. apply Rabs_le_between in A, B. apply Rabs_le. lra. }
    assert (E : INR (S k) - INR k = 1) by (rewrite S_INR; ring). rewrite E in Q. unfold trapR. apply Rabs_le_between in Q. apply Rabs_le. lra.
  Qed.
  Lemma cart_err k : (S (S k) < N)%nat ->
    Rabs (h * (5 / 12 * g (S (S k)) + 2 / 3 * g (S k) - 1 / 12 * g k) - RInt f (INR (S k) * h) (INR (S (S k)) * h)) <= 2 * h * w.
  Proof.
    intros H. pose proof w_pos as W. pose proof (panel (S k) (S (S k)) (5 / 12 * g (S (S k)) + 2 / 3 * g (S k) - 1 / 12 * g k) (2 * w) ltac:(lia) ltac:(lra)) as P.
    assert (E : INR (S (S k)) - INR (S k) = 1) by (rewrite (S_INR (S k)); ring). rewrite E in P.
    assert (Q : Rabs (1 * h * (5 / 12 * g (S (S k)) + 2 / 3 * g (S k) - 1 / 12 * g k) - RInt f (INR (S k) * h) (INR (S (S k)) * h)) <= 1 * h * (2 * w)).
    { apply P. intros x Hx. pose proof (near (S k) (S (S k)) k x ltac:(lia) ltac:(lia) ltac:(lia) ltac:(lia) Hx) as A.
      pose proof (near (S k) (S (S k)) (S k) x ltac:(lia) ltac:(lia) ltac:(lia) ltac:(lia) Hx) as B.
      pose proof (near (S k) (S (S k)) (S (S k)) x ltac:(lia) ltac:(lia) ltac:(lia) ltac:(lia) Hx) as C.
      apply Rabs_le_between in A, B, C. apply Rabs_le. lra. }
    apply Rabs_le_between in Q. apply Rabs_le. lra.
  Qed.
  Theorem simps_err old : Rabs (simpsR old N h g - RInt f 0 b) <= 2 * b * w.
  Proof.
    pose proof w_pos as W. unfold simpsR. set (m := Nat.div2 (N - 1)). pose proof (pos_INR (2 * m)) as Pm.
    assert (P1 : 0 <= INR (2 * m) * h * w) by (repeat apply Rmult_le_pos; assumption). assert (P2 : 0 <= h * w) by now apply Rmult_le_pos.
    replace (RInt f 0 b) with (RInt f (INR 0 * h) b) by (f_equal; simpl; ring).
    destruct (Nat.odd N) eqn:Eo.
    - pose proof (odd_div2 N Eo) as E. fold m in E. pose proof (basic_err 0 m ltac:(lia)) as B. cbn [Nat.add] in B. unfold b.
      replace (N - 1)%nat with (2 * m)%nat by lia. lra.
    - pose proof (even_div2 N Eo HN) as E. fold m in E. clearbody m.
      assert (EI : INR (N - 1) = INR (2 * m) + 1) by (replace (N - 1)%nat with (S (2 * m)) by lia; apply S_INR).
      pose proof (basic_err 0 m ltac:(lia)) as B0. cbn [Nat.add] in B0.
      assert (C0 : RInt f (INR 0 * h) b = RInt f (INR 0 * h) (INR (2 * m) * h) + RInt f (INR (2 * m) * h) (INR (S (2 * m)) * h)).
      { unfold b. replace (N - 1)%nat with (S (2 * m)) by lia. symmetry. apply (RInt_Chasles f); apply sub_int; lia. }
      destruct (orb old (N =? 2)%nat) eqn:Ea.
      + pose proof (basic_err 1 m ltac:(lia)) as B1. pose proof (trap_err (N - 2) ltac:(lia)) as T1. pose proof (trap_err 0 ltac:(lia)) as T0.
        replace (N - 2)%nat with (2 * m)%nat in * by lia. cbn [Nat.add] in B1. replace (1 + 2 * m)%nat with (S (2 * m)) in B1 by lia.
        assert (C1 : RInt f (INR 0 * h) b = RInt f (INR 0 * h) (INR 1 * h) + RInt f (INR 1 * h) (INR (S (2 * m)) * h)).
        { unfold b. replace (N - 1)%nat with (S (2 * m)) by lia. symmetry. apply (RInt_Chasles f); apply sub_int; lia. }
        assert (Eb : b = (INR (2 * m) + 1) * h) by (unfold b; rewrite EI; reflexivity). rewrite Eb at 2.
        replace (RInt f (INR 0 * h) b) with ((RInt f (INR 0 * h) b + RInt f (INR 0 * h) b) / 2) by field. rewrite C0 at 1. rewrite C1.
        apply Rabs_le_between in B0, B1, T0, T1. apply Rabs_le. lra.
      + assert (H3 : (3 < N)%nat) by (destruct old; [discriminate|]; apply Nat.eqb_neq in Ea; lia).
        destruct m as [|m]; [lia|]. pose proof (cart_err (2 * m + 1) ltac:(lia)) as K.
        replace (N - 1)%nat with (S (S (2 * m + 1))) by lia. replace (N - 2)%nat with (S (2 * m + 1)) by lia. replace (N - 3)%nat with (2 * m + 1)%nat by lia.
        replace (2 * S m)%nat with (S (2 * m + 1)) in * by lia.
        assert (Eb : b = (INR (S (2 * m + 1)) + 1) * h) by (unfold b; rewrite EI; reflexivity). rewrite Eb at 2. rewrite C0.
        apply Rabs_le_between in B0, K. apply Rabs_le. lra.
  Qed.
End Conv.
