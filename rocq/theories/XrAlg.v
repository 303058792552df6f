(** Algebra of extended reals. *)
From Verif Require Export Xr.
Open Scope R_scope.

Ltac xcase := repeat match goal with
  | |- context [rsign ?r] => unfold rsign
  | |- context [Rlt_dec ?a ?b] => destruct (Rlt_dec a b)
  | |- context [Req_EM_T ?a ?b] => destruct (Req_EM_T a b)
  end.
Lemma xadd_comm a b : xadd a b = xadd b a.
Proof. destruct a, b; simpl; try reflexivity. f_equal. ring. Qed.
Lemma xadd_assoc a b c : xadd a (xadd b c) = xadd (xadd a b) c.
Proof. destruct a, b, c; simpl; try reflexivity. f_equal. ring. Qed.
Lemma xmul_comm a b : xmul a b = xmul b a.
Proof. destruct a, b; simpl; try reflexivity. f_equal. ring. Qed.
Lemma inf_mul_fin s r : xmul (inf_of_sign s) (Fin r) = inf_of_sign (s * rsign r).
Proof. destruct s; simpl; try reflexivity; unfold rsign; xcase; reflexivity. Qed.
Lemma rsign_mult a b : rsign (a * b) = (rsign a * rsign b)%Z.
Proof.
  unfold rsign.
  destruct (Rlt_dec 0 a), (Rlt_dec 0 b); try (destruct (Rlt_dec a 0); try lra); try (destruct (Rlt_dec b 0); try lra);
    destruct (Rlt_dec 0 (a * b)); try reflexivity;
    try (destruct (Rlt_dec (a * b) 0); try reflexivity); exfalso; try nra.
Qed.
Lemma xmul_assoc a b c : xmul a (xmul b c) = xmul (xmul a b) c.
Proof.
  destruct a as [x| | |]; try (destruct b as [y| | |], c as [z| | |]; simpl; try reflexivity;
    try (unfold rsign; xcase; reflexivity); fail).
  - destruct b as [y| | |], c as [z| | |]; simpl; try reflexivity; try (unfold rsign; xcase; simpl; xcase; try reflexivity; lra).
    + f_equal. ring.
    + rewrite rsign_mult. unfold rsign; xcase; reflexivity.
    + rewrite rsign_mult. unfold rsign; xcase; reflexivity.
  - destruct b as [y| | |], c as [z| | |]; simpl; try reflexivity; try (unfold rsign; xcase; reflexivity).
    rewrite rsign_mult, inf_mul_fin. reflexivity.
  - destruct b as [y| | |], c as [z| | |]; simpl; try reflexivity; try (unfold rsign; xcase; reflexivity).
    rewrite rsign_mult, inf_mul_fin. f_equal. ring.
Qed.
(** multiplication by a finite number distributes over addition *)
Lemma xmul_add_fin a b k : xmul (xadd a b) (Fin k) = xadd (xmul a (Fin k)) (xmul b (Fin k)).
Proof.
  destruct a, b; simpl; try reflexivity; try (unfold rsign; xcase; reflexivity). f_equal. ring.
Qed.
Lemma xmul_fin_add a b k : xmul (Fin k) (xadd a b) = xadd (xmul (Fin k) a) (xmul (Fin k) b).
Proof. rewrite !(xmul_comm (Fin k)). apply xmul_add_fin. Qed.
Lemma xmul_1_l a : xmul (Fin 1) a = a.
Proof. destruct a; simpl; try reflexivity; try (rewrite rsign_pos by lra; reflexivity). f_equal. ring. Qed.
Lemma xmul_1_r a : xmul a (Fin 1) = a.
Proof. rewrite xmul_comm. apply xmul_1_l. Qed.
Lemma xadd_0_l a : xadd (Fin 0) a = a.
Proof. destruct a; simpl; try reflexivity. f_equal. ring. Qed.
Lemma xadd_0_r a : xadd a (Fin 0) = a.
Proof. rewrite xadd_comm. apply xadd_0_l. Qed.
(** division by a positive number *)
Lemma xdiv_pos a k : 0 < k -> xdiv a (Fin k) = xmul a (Fin (/ k)).
Proof.
  intros H. assert (H' : 0 < / k) by (now apply Rinv_0_lt_compat).
  destruct a; simpl; try reflexivity.
  - destruct (Req_EM_T k 0); [lra|]. reflexivity.
  - rewrite rsign_pos by assumption. destruct (Rlt_dec k 0); [lra|reflexivity].
  - rewrite rsign_pos by assumption. destruct (Rlt_dec k 0); [lra|reflexivity].
Qed.
Lemma xmul_cancel a k : k <> 0 -> xmul (xmul a (Fin k)) (Fin (/ k)) = a.
Proof. intros H. rewrite <- xmul_assoc. simpl xmul at 2. rewrite Rinv_r by assumption. apply xmul_1_r. Qed.
Lemma xdiv_mul a b k : 0 < k -> xdiv (xmul (Fin k) a) b = xmul (Fin k) (xdiv a b).
Proof.
  intros H. destruct a as [x| | |], b as [y| | |]; simpl; try reflexivity;
    try (rewrite !(rsign_pos k) by assumption; simpl; try reflexivity;
         destruct (Rlt_dec y 0); simpl; rewrite ?(rsign_pos k) by assumption; reflexivity).
  - destruct (Req_EM_T y 0).
    + rewrite rsign_mult, (rsign_pos k) by assumption. destruct (rsign x); simpl; rewrite ?(rsign_pos k) by assumption; reflexivity.
    + simpl. f_equal. unfold Rdiv. ring.
  - f_equal. ring.
  - f_equal. ring.
Qed.
Lemma xis_nan_scale k a : 0 < k -> xis_nan (xmul (Fin k) a) = xis_nan a.
Proof. intros H. destruct a; simpl; rewrite ?(rsign_pos k) by assumption; reflexivity. Qed.
