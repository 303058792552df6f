(** Shapes of the results, and the row structure of what calc() returns. *)
From Verif Require Export Elem.
Open Scope nat_scope.

(** [s] broadcasts into [t] without changing it *)
Definition ble (s t : list nat) : Prop := bc_shape s t = Some t.
Lemma ble_nil t : ble [] t. Proof. reflexivity. Qed.
Lemma ble_refl t : ble t t. Proof. apply bc_shape_refl. Qed.
Lemma bc_dim_ble d e x : bc_dim d e = Some x -> bc_dim d x = Some x /\ bc_dim e x = Some x.
Proof.
  unfold bc_dim. destruct (Nat.eqb_spec d e); [intros H; inversion H; subst; now rewrite Nat.eqb_refl|].
  destruct (Nat.eqb_spec d 1).
  - intros H; inversion H; subst. rewrite Nat.eqb_refl. destruct (Nat.eqb_spec 1 x); auto.
  - destruct (Nat.eqb_spec e 1); intros H; inversion H; subst. rewrite Nat.eqb_refl.
    split; [reflexivity|]. destruct (Nat.eqb_spec 1 x); congruence.
Qed.
Lemma bc_ble s t r : bc_shape s t = Some r -> ble s r /\ ble t r.
Proof.
  unfold ble. revert t r. induction s as [|d s IH]; intros [|e t] r H; simpl in H.
  - inversion H; subst. auto.
  - inversion H; subst. split; [reflexivity|apply bc_shape_refl].
  - inversion H; subst. split; [apply bc_shape_refl|reflexivity].
  - destruct (bc_dim d e) as [x|] eqn:Ed; [|discriminate]. destruct (bc_shape s t) as [r'|] eqn:Es; [|discriminate].
    inversion H; subst. destruct (bc_dim_ble _ _ _ Ed) as [H1 H2]. destruct (IH _ _ Es) as [H3 H4].
    simpl. rewrite H1, H2, H3, H4. auto.
Qed.
Lemma ble_cons d s e t : ble (d :: s) (e :: t) <-> (d = 1 \/ d = e) /\ ble s t.
Proof.
  unfold ble. simpl. split.
  - destruct (bc_dim d e) as [x|] eqn:Ed; [|discriminate]. destruct (bc_shape s t) as [r|]; [|discriminate].
    intros H; inversion H; subst. split; [eapply bc_dim_l; eassumption|reflexivity].
  - intros [Hd ->]. unfold bc_dim. destruct Hd as [->| ->]; rewrite ?Nat.eqb_refl; [|reflexivity].
    destruct (Nat.eqb_spec 1 e); subst; reflexivity.
Qed.
Lemma ble_nil_r s : ble s [] -> s = [].
Proof. unfold ble. rewrite bc_shape_nil_r. congruence. Qed.
Lemma ble_trans s t r : ble s t -> ble t r -> ble s r.
Proof.
  revert t r. induction s as [|d s IH]; intros [|e t] [|f r] H1 H2; try apply ble_nil;
    try (apply ble_nil_r in H1; discriminate); try (apply ble_nil_r in H2; discriminate).
  apply ble_cons in H1. apply ble_cons in H2. apply ble_cons.
  destruct H1 as [H1 H1'], H2 as [H2 H2']. split; [|eapply IH; eassumption].
  destruct H1 as [H1|H1]; [auto|]. subst. assumption.
Qed.
Lemma ble_length s t : ble s t -> length s <= length t.
Proof.
  revert t. induction s as [|d s IH]; intros [|e t] H; simpl; try lia.
  - apply ble_nil_r in H. discriminate.
  - apply ble_cons in H. destruct H as [_ H]. apply IH in H. lia.
Qed.
Lemma ble_app s t u : ble s t -> ble s (t ++ u).
Proof.
  revert t. induction s as [|d s IH]; intros [|e t] H; try apply ble_nil.
  - apply ble_nil_r in H. discriminate.
  - apply ble_cons in H. simpl. apply ble_cons. destruct H; auto.
Qed.
Lemma ble_sub s t : ble s t -> sub s t.
Proof. intros H. eapply sub_l. exact H. Qed.
(** the least common shape *)
Lemma ble_lub s t u : ble s u -> ble t u -> exists r, bc_shape s t = Some r /\ ble r u.
Proof.
  revert t u. induction s as [|d s IH]; intros [|e t] u H1 H2; simpl; eauto.
  destruct u as [|f u]; [apply ble_nil_r in H1; discriminate|].
  apply ble_cons in H1. apply ble_cons in H2. destruct H1 as [H1 H1'], H2 as [H2 H2'].
  destruct (IH t u H1' H2') as (r & Er & Hr). rewrite Er. unfold bc_dim.
  destruct (Nat.eqb_spec d e); [subst; eexists; split; [reflexivity|]; apply ble_cons; auto|].
  destruct (Nat.eqb_spec d 1); [eexists; split; [reflexivity|]; apply ble_cons; auto|].
  destruct (Nat.eqb_spec e 1); [eexists; split; [reflexivity|]; apply ble_cons; auto|].
  exfalso. destruct H1, H2; congruence.
Qed.

Lemma map2_ble {A B C} (f : A -> B -> C) a b c : map2 f a b = Ok c -> ble (shp a) (shp c) /\ ble (shp b) (shp c).
Proof. intros H. apply shp_map2 in H. now apply bc_ble. Qed.
Lemma map2_total {A B C} (f : A -> B -> C) a b u : ble (shp a) u -> ble (shp b) u ->
  exists c, map2 f a b = Ok c /\ ble (shp c) u.
Proof.
  intros Ha Hb. destruct (ble_lub _ _ _ Ha Hb) as (r & Er & Hr). unfold map2. rewrite Er.
  eexists. split; [reflexivity|exact Hr].
Qed.
Lemma map2_eq {A B C} (f : A -> B -> C) a b : ble (shp b) (shp a) -> exists c, map2 f a b = Ok c /\ shp c = shp a.
Proof. intros H. unfold map2. rewrite bc_shape_comm. unfold ble in H. rewrite H. eexists; split; reflexivity. Qed.

Lemma proj_app s idx l : length s <= length idx -> proj s (idx ++ l) = proj s idx.
Proof.
  revert idx. induction s as [|d s IH]; intros [|i idx] H; simpl in *; try lia; [reflexivity..|].
  rewrite IH by lia. reflexivity.
Qed.
Lemma bget_app {A} (a : nd A) idx l : length (shp a) <= length idx -> bget a (idx ++ l) = bget a idx.
Proof. intros H. unfold bget. now rewrite proj_app. Qed.
Lemma valid_proj s t idx : ble s t -> valid_idx t idx -> valid_idx s (proj s idx).
Proof.
  revert t idx. induction s as [|d s IH]; intros t idx H Hv; [exact I|].
  destruct t as [|e t]; [apply ble_nil_r in H; discriminate|]. destruct idx as [|i idx]; [destruct Hv|].
  apply ble_cons in H. destruct H as [Hd H]. destruct Hv as [Hi Hv]. simpl. split; [|eapply IH; eassumption].
  destruct (Nat.eqb_spec d 1); [lia|]. destruct Hd; [contradiction|]. lia.
Qed.

(** ** Rows of a result *)
(** result[k]: numpy's first axis (our last) *)
Definition row (a : nd xr) (k : nat) : nd xr := mk_nd (removelast (shp a)) (fun i => get a (i ++ [k])).
Definition nrows (a : nd xr) : nat := last (shp a) 0.

(** equal as arrays: same shape, same elements *)
Definition same_arr {A} (a b : nd A) : Prop := shp a = shp b /\ forall i, valid_idx (shp a) i -> get a i = get b i.
Lemma same_refl {A} (a : nd A) : same_arr a a. Proof. split; auto. Qed.
Lemma same_sym {A} (a b : nd A) : same_arr a b -> same_arr b a.
Proof. intros [H1 H2]. split; [auto|]. intros i Hi. rewrite H2; congruence. Qed.
Lemma same_trans {A} (a b c : nd A) : same_arr a b -> same_arr b c -> same_arr a c.
Proof. intros [H1 H2] [H3 H4]. split; [congruence|]. intros i Hi. rewrite H2 by assumption. apply H4. congruence. Qed.

Lemma stack_spec {A} (l : list (nd A)) s : stack l = Ok s ->
  exists sh, shp s = sh ++ [length l] /\ Forall (fun a => shp a = sh) l /\
    forall k a i, nth_error l k = Some a -> length i = length sh -> get s (i ++ [k]) = get a i.
Proof.
  destruct l as [|a0 l]; [discriminate|]. unfold stack. destruct (forallb _ l) eqn:E; [|discriminate].
  intros H; inversion H; subst s. exists (shp a0). split; [reflexivity|]. split.
  - constructor; [reflexivity|]. rewrite forallb_forall in E. apply Forall_forall. intros b Hb. apply E in Hb.
    unfold list_nat_eqb in Hb. destruct (list_eq_dec _ _ _); [assumption|discriminate].
  - intros k a i Hk Hi. cbn [get]. rewrite <- Hi.
    rewrite firstn_app, firstn_all, Nat.sub_diag, firstn_O, app_nil_r.
    rewrite app_nth2 by lia. rewrite Nat.sub_diag. cbn [nth].
    f_equal. exact (nth_error_nth (a0 :: l) k a0 Hk).
Qed.
Lemma stack_total {A} (l : list (nd A)) sh : l <> [] -> Forall (fun a => shp a = sh) l -> exists s, stack l = Ok s.
Proof.
  intros Hl H. destruct l as [|a l]; [congruence|]. unfold stack. inversion H; subst.
  replace (forallb _ l) with true; [eauto|]. symmetry. apply forallb_forall. intros b Hb.
  rewrite Forall_forall in H3. unfold list_nat_eqb. destruct (list_eq_dec _ _ _); [reflexivity|].
  exfalso. apply n. now apply H3.
Qed.

(** ** Unit conversion *)
Definition x_convert (sig0 dB : bool) (i0 mu0 v : xr) : xr :=
  let r := xmul v (if sig0 then xdiv (xmul (Fin (4 * PI)) mu0) i0 else Fin 1%R) in
  if dB then xmul (Fin 10%R) (xlog10 r) else r.

Lemma k_convert_el sig0 dB i0 mu0 val a idx : k_convert sig0 dB i0 mu0 val = Ok a ->
  bget a idx = x_convert sig0 dB (bget i0 idx) (bget mu0 idx) (bget val idx).
Proof.
  unfold k_convert, x_convert. destruct sig0.
  - kernel. destruct dB; [kernel; unfold nlog10; rewrite bget_map1; bg; reflexivity|kernel].
  - cbn [rbind]. kernel. destruct dB; [kernel; unfold nlog10; rewrite bget_map1; bg; reflexivity|kernel].
Qed.
Lemma k_convert_shp sig0 dB i0 mu0 val a : k_convert sig0 dB i0 mu0 val = Ok a ->
  (sig0 = true -> ble (shp i0) (shp val) /\ ble (shp mu0) (shp val)) -> shp a = shp val.
Proof.
  unfold k_convert. intros H Hb.
  destruct (if sig0 then _ else _) as [n|] eqn:E; [cbn [rbind] in H|discriminate].
  destruct (nmul val n) as [n0|] eqn:E0; [cbn [rbind] in H|discriminate].
  assert (E1 : shp n0 = shp val).
  { assert (Hs : ble (shp n) (shp val)).
    { destruct sig0; [|inversion E; apply ble_nil]. destruct (Hb eq_refl) as [B1 B2].
      destruct (nmul (num (4 * PI)) mu0) as [n1|] eqn:E1; [cbn [rbind] in E|discriminate].
      unfold ndiv, nmul in *. apply shp_map2 in E, E1. simpl in E1.
      inversion E1 as [X]. destruct (ble_lub (shp n1) (shp i0) (shp val)) as (r & Er & Hr); [congruence|assumption|].
      congruence. }
    unfold nmul in E0. apply shp_map2 in E0. rewrite bc_shape_comm in E0. unfold ble in Hs. congruence. }
  destruct dB; [|inversion H; congruence].
  unfold nmul, nlog10 in H. apply shp_map2 in H. simpl in H. congruence.
Qed.
Lemma k_convert_total sig0 dB i0 mu0 val :
  (sig0 = true -> ble (shp i0) (shp val) /\ ble (shp mu0) (shp val)) ->
  exists a, k_convert sig0 dB i0 mu0 val = Ok a.
Proof.
  intros Hb. unfold k_convert.
  assert (Hn : exists n, (if sig0 then let* x := nmul (num (4 * PI)) mu0 in ndiv x i0 else Ok (num 1)) = Ok n /\ ble (shp n) (shp val)).
  { destruct sig0; [|exists (num 1); split; [reflexivity|apply ble_nil]]. destruct (Hb eq_refl) as [B1 B2].
    destruct (map2_total xmul (num (4 * PI)) mu0 (shp val)) as (x & Ex & Hx); [apply ble_nil|assumption|].
    destruct (map2_total xdiv x i0 (shp val)) as (y & Ey & Hy); auto.
    exists y. unfold nmul, ndiv. rewrite Ex. cbn [rbind]. auto. }
  destruct Hn as (n & -> & Hn). cbn [rbind].
  destruct (map2_total xmul val n (shp val)) as (r & Er & Hr); [apply ble_refl|assumption|].
  unfold nmul at 1. rewrite Er. cbn [rbind]. destruct dB; [|eauto].
  destruct (map2_total xmul (num 10) (nlog10 r) (shp val)) as (y & Ey & Hy); [apply ble_nil|exact Hr|].
  exists y. exact Ey.
Qed.

(** the surface array contains the shapes of I0 and mu_0 *)
Lemma k_surface_ble i0 mu0 muex srf tau norm bsf a : k_surface i0 mu0 muex srf tau norm bsf = Ok a ->
  ble (shp i0) (shp a) /\ ble (shp mu0) (shp a) /\ ble (shp muex) (shp a) /\ ble (shp srf) (shp a) /\
  ble (shp tau) (shp a) /\ ble (shp norm) (shp a) /\ ble (shp bsf) (shp a).
Proof.
  unfold k_surface, k_bare, k_atten, k_mix. intros H. repeat rb H.
  repeat match goal with E : rbind _ _ = Ok _ |- _ => rb E end.
  repeat match goal with E : Ok _ = Ok _ |- _ => inversion E; subst; clear E end.
  unfold nmul, nadd, nsub, ndiv in *.
  repeat match goal with E : map2 _ _ _ = Ok _ |- _ => apply map2_ble in E; simpl in E; destruct E as [? ?] end.
  repeat split; eauto 12 using ble_trans.
Qed.
Lemma k_volume_ble i0 om mu0 muex tau v bsf a : k_volume i0 om mu0 muex tau v bsf = Ok a ->
  ble (shp i0) (shp a) /\ ble (shp om) (shp a) /\ ble (shp mu0) (shp a) /\ ble (shp muex) (shp a) /\
  ble (shp tau) (shp a) /\ ble (shp v) (shp a) /\ ble (shp bsf) (shp a).
Proof.
  unfold k_volume, k_vol, k_atten. intros H. repeat rb H.
  repeat match goal with E : rbind _ _ = Ok _ |- _ => rb E end.
  repeat match goal with E : Ok _ = Ok _ |- _ => inversion E; subst; clear E end.
  unfold nmul, nadd, nsub, ndiv in *.
  repeat match goal with E : map2 _ _ _ = Ok _ |- _ => apply map2_ble in E; simpl in E; destruct E as [? ?] end.
  repeat split; eauto 12 using ble_trans.
Qed.
Lemma k_interaction_ble i0 mu0 muex om tau norm bsf f1 f2 a :
  k_interaction i0 mu0 muex om tau norm bsf f1 f2 = Ok a ->
  ble (shp i0) (shp a) /\ ble (shp mu0) (shp a) /\ ble (shp muex) (shp a) /\ ble (shp om) (shp a) /\
  ble (shp tau) (shp a) /\ ble (shp norm) (shp a) /\ ble (shp bsf) (shp a) /\ ble (shp f1) (shp a) /\ ble (shp f2) (shp a).
Proof.
  unfold k_interaction. intros H. repeat rb H.
  unfold nmul, nadd, nsub, ndiv in *.
  repeat match goal with E : map2 _ _ _ = Ok _ |- _ => apply map2_ble in E; simpl in E; destruct E as [? ?] end.
  repeat split; eauto 12 using ble_trans.
Qed.

Lemma k_rows_spec isurf ivol iint rows : k_rows isurf ivol iint = Ok rows ->
  let n := match iint with Some _ => 4 | None => 3 end in
  shp rows = shp isurf ++ [n] /\ shp ivol = shp isurf /\ (forall i, iint = Some i -> shp i = shp isurf) /\
  forall i, length i = length (shp isurf) ->
    get rows (i ++ [1]) = get isurf i /\ get rows (i ++ [2]) = get ivol i /\
    (forall x, iint = Some x -> get rows (i ++ [3]) = get x i) /\
    (valid_idx (shp isurf) i -> get rows (i ++ [0]) =
       match iint with
       | Some x => xadd (xadd (get isurf i) (get ivol i)) (get x i)
       | None => xadd (get isurf i) (get ivol i)
       end).
Proof.
  unfold k_rows. intros H. destruct (nadd isurf ivol) as [n|] eqn:E; [cbn [rbind] in H|discriminate]. destruct iint as [x|].
  - destruct (nadd n x) as [n0|] eqn:E0; [cbn [rbind] in H|discriminate]. destruct (stack_spec _ _ H) as (sh & Hs & Hall & Hg). simpl in Hs.
    inversion Hall as [|? ? Ht Hall1]; subst. inversion Hall1 as [|? ? Hi Hall2]; subst.
    inversion Hall2 as [|? ? Hv Hall3]; subst. inversion Hall3 as [|? ? Hx _]; subst.
    split; [now rewrite Hs, Hi|]. split; [congruence|]. split; [intros ? X; inversion X; congruence|].
    intros i Hl. assert (Hl' : length i = length (shp n0)) by congruence.
    split; [apply (Hg 1); auto|]. split; [apply (Hg 2); auto|].
    split; [intros y X; inversion X; subst; apply (Hg 3); auto|].
    intros Hvl. rewrite (Hg 0 n0) by auto. unfold nadd in *.
    rewrite <- (bget_valid n0) by congruence. rewrite (bget_map2 _ _ _ _ _ E0), (bget_map2 _ _ _ _ _ E).
    rewrite !bget_valid by congruence. reflexivity.
  - destruct (stack_spec _ _ H) as (sh & Hs & Hall & Hg). simpl in Hs.
    inversion Hall as [|? ? Ht Hall1]; subst. inversion Hall1 as [|? ? Hi Hall2]; subst.
    inversion Hall2 as [|? ? Hv _]; subst.
    split; [now rewrite Hs, Hi|]. split; [congruence|]. split; [discriminate|].
    intros i Hl. assert (Hl' : length i = length (shp n)) by congruence.
    split; [apply (Hg 1); auto|]. split; [apply (Hg 2); auto|]. split; [discriminate|].
    intros Hvl. rewrite (Hg 0 n) by auto. unfold nadd in *.
    rewrite <- (bget_valid n) by congruence. rewrite (bget_map2 _ _ _ _ _ E).
    rewrite !bget_valid by congruence. reflexivity.
Qed.

Lemma valid_app s i n k : valid_idx s i -> k < n -> valid_idx (s ++ [n]) (i ++ [k]).
Proof.
  revert i. induction s as [|d s IH]; intros [|j i]; simpl; try tauto.
  intros [H1 H2] Hk. auto.
Qed.
(** one row of the converted result *)
Lemma convert_row sig0 dB i0 mu0 rows a s n k i :
  k_convert sig0 dB i0 mu0 rows = Ok a -> shp rows = s ++ [n] ->
  (sig0 = true -> ble (shp i0) s /\ ble (shp mu0) s) ->
  shp a = s ++ [n] /\
  (k < n -> valid_idx s i ->
   get a (i ++ [k]) = x_convert sig0 dB (if sig0 then bget i0 i else Fin 1%R) (if sig0 then bget mu0 i else Fin 1%R)
                        (get rows (i ++ [k]))).
Proof.
  intros H Hs Hb.
  assert (Ha : shp a = s ++ [n]).
  { rewrite <- Hs. eapply k_convert_shp; [eassumption|]. intros X. destruct (Hb X). rewrite Hs.
    split; now apply ble_app. }
  split; [exact Ha|]. intros Hk Hv.
  assert (V : valid_idx (s ++ [n]) (i ++ [k])) by (now apply valid_app).
  rewrite <- (bget_valid a) by congruence. rewrite (k_convert_el _ _ _ _ _ _ _ H).
  rewrite (bget_valid rows) by congruence. destruct sig0; [|reflexivity].
  destruct (Hb eq_refl) as [B1 B2]. apply ble_length in B1, B2. pose proof (valid_idx_length _ _ Hv).
  rewrite !bget_app by lia. reflexivity.
Qed.
