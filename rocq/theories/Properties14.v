(** Property theorems, part 14: the layout of what jacobian() returns (C37, C38). *)
From Verif Require Import XrAlg Formula JacEl JacSym Properties12.
From Coq Require Import Lia List.
Import ListNotations.
Open Scope string_scope.
Open Scope nat_scope.
Open Scope list_scope.

(** *** C37.  One entry per key, in the order of the keys; each is what jacobian([key]) returns. *)
Lemma jac_fun w o keys f : good w (OJacobian o keys f) -> forall r, obj (w_heap w) o = Ok r ->
  snd (step w (OJacobian o keys f)) = match p_jacobian (conf (w_heap w) r) keys f with Ok j => RetJac j | Err e => Raised e end.
Proof. intros G r Hr. destruct (good_eval _ _ G) as (_ & E & _). rewrite E. apply (eval_jacobian _ o r keys f Hr). Qed.
Lemma jac_any w o keys keys' f f' : good w (OJacobian o keys f) -> good w (OJacobian o keys' f').
Proof. intros G. eapply good_other; [exact G|]. intros J. exact I. Qed.
Lemma jac_obj w o keys f j : snd (step w (OJacobian o keys f)) = RetJac j -> exists r, obj (w_heap w) o = Ok r.
Proof.
  intros H. destruct (obj (w_heap w) o) as [r|e] eqn:Hr; [eauto|]. exfalso. revert H. cbn [step]. unfold api_jacobian, as_out, bind, jac_norm, get_obj, gets.
  unfold bind. rewrite Hr. discriminate.
Qed.
Lemma entries_len C norm keys js : p_jac_entries C norm keys = Ok js -> length js = length keys.
Proof.
  revert js. induction keys as [|k ks IH]; intros js H; cbn [p_jac_entries] in H; [apply ok_inj in H; now subst js|].
  destruct (p_jac_entry C norm k); [cbn [rbind] in H|discriminate H]. destruct (p_jac_entries C norm ks) as [l|]; [cbn [rbind] in H|discriminate H].
  apply ok_inj in H. subst js. cbn [length]. f_equal. now apply IH.
Qed.
Theorem C37_one_entry_per_key : forall w o keys js,
  good w (OJacobian o keys "list") -> snd (step w (OJacobian o keys "list")) = RetJac (JList js) ->
  length js = length keys /\
  forall n key j, nth_error keys n = Some key -> nth_error js n = Some j ->
    snd (step w (OJacobian o [key] "list")) = RetJac (JList [j]).
Proof.
  intros w o keys js G H. destruct (jac_obj _ _ _ _ _ H) as [r Hr].
  assert (Hc : at_conf w o (conf (w_heap w) r) (fnev_next (w_heap w) r)) by (exists r; auto).
  destruct (jac_inv _ _ _ _ _ _ G Hc H) as (norm & En & Ej). split; [eapply entries_len; eassumption|].
  intros n key j Hk Hj. rewrite (jac_fun w o [key] "list" (jac_any _ _ _ _ _ _ G) r Hr). unfold p_jacobian. rewrite En. cbn [rbind p_jac_entries].
  rewrite (entries_nth _ _ _ _ _ _ _ Ej Hk Hj). reflexivity.
Qed.
(** ... and a key is unknown if it is neither a parameter of the model nor in R.param_dict *)
Definition unknown_key (w : world) (o : nat) (k : string) : Prop :=
  (forall p, k <> pkey p) /\ forall d, snd (step w (OParamDict o)) = RetDict d -> ~ In k (dkeys d).
Lemma entries_app C norm k2 : forall k1 js, p_jac_entries C norm k1 = Ok js ->
  p_jac_entries C norm (k1 ++ k2) = let* l := p_jac_entries C norm k2 in Ok (js ++ l).
Proof.
  induction k1 as [|k ks IH]; intros js H; cbn [p_jac_entries app] in *.
  - apply ok_inj in H. subst js. destruct (p_jac_entries C norm k2); reflexivity.
  - destruct (p_jac_entry C norm k); [cbn [rbind] in *|discriminate H]. destruct (p_jac_entries C norm ks) as [l|] eqn:E; [cbn [rbind] in H|discriminate H].
    apply ok_inj in H. subst js. rewrite (IH l eq_refl). destruct (p_jac_entries C norm k2); reflexivity.
Qed.
Theorem C37_unknown_key : forall w o pre k post js f d,
  good w (OJacobian o pre "list") -> snd (step w (OJacobian o pre "list")) = RetJac (JList js) ->
  snd (step w (OParamDict o)) = RetDict d -> unknown_key w o k ->
  snd (step w (OJacobian o (pre ++ k :: post) f)) = Raised AssertionError.
Proof.
  intros w o pre k post js f d G H Hd [Np Nd]. destruct (jac_obj _ _ _ _ _ H) as [r Hr].
  assert (Hc : at_conf w o (conf (w_heap w) r) (fnev_next (w_heap w) r)) by (exists r; auto).
  destruct (jac_inv _ _ _ _ _ _ G Hc H) as (norm & En & Ej).
  rewrite (jac_fun w o _ f (jac_any _ _ _ _ _ _ G) r Hr). unfold p_jacobian. rewrite En. cbn [rbind]. rewrite (entries_app _ _ (k :: post) _ _ Ej).
  cbn [p_jac_entries]. unfold p_jac_entry at 1, p_jac_sv.
  destruct (String.eqb_spec k "omega") as [Z|_]; [now apply (Np Omega) in Z|]. destruct (String.eqb_spec k "tau") as [Z|_]; [now apply (Np Tau) in Z|].
  destruct (String.eqb_spec k "NormBRDF") as [Z|_]; [now apply (Np NormBRDF) in Z|]. destruct (String.eqb_spec k "bsf") as [Z|_]; [now apply (Np Bsf) in Z|].
  destruct (mem k _) eqn:M; [|reflexivity]. exfalso. apply mem_In in M. apply (Nd d Hd). apply (c_dict w _ o _ _ G Hc) in Hd.
  rewrite (JacSym.dkeys_params _ _ Hd). exact M.
Qed.
Theorem C37_unknown_format : forall w o keys js f,
  good w (OJacobian o keys "list") -> snd (step w (OJacobian o keys "list")) = RetJac (JList js) ->
  f <> "list" -> f <> "scipy_least_squares" -> snd (step w (OJacobian o keys f)) = Raised TypeError.
Proof.
  intros w o keys js f G H N1 N2. destruct (jac_obj _ _ _ _ _ H) as [r Hr].
  assert (Hc : at_conf w o (conf (w_heap w) r) (fnev_next (w_heap w) r)) by (exists r; auto).
  destruct (jac_inv _ _ _ _ _ _ G Hc H) as (norm & En & Ej).
  rewrite (jac_fun w o _ f (jac_any _ _ _ _ _ _ G) r Hr). unfold p_jacobian. rewrite En. cbn [rbind]. rewrite Ej. cbn [rbind].
  apply String.eqb_neq in N1, N2. now rewrite N1, N2.
Qed.
Print Assumptions C37_one_entry_per_key.
Print Assumptions C37_unknown_key.
Print Assumptions C37_unknown_format.
Example C37_nonvacuous : exists js d, good wB (OJacobian 0 keysB "list") /\ snd (step wB (OJacobian 0 keysB "list")) = RetJac (JList js) /\
  snd (step wB (OParamDict 0)) = RetDict d /\ unknown_key wB 0 "nope".
Proof.
  destruct wB_jac as (js & J & _).
  assert (E : match snd (step wB (OParamDict 0)) with RetDict d => dkeys d | _ => [] end = ["bsf"; "tau"; "omega"; "NormBRDF"; "t"]) by (vm_compute; reflexivity).
  destruct (snd (step wB (OParamDict 0))) as [| | | |d| |] eqn:Ed; try discriminate E. exists js, d. split; [apply wB_jgood|]. split; [exact J|]. split; [reflexivity|].
  split; [intros []; discriminate|]. intros d' H. rewrite Ed in H. replace d' with d by congruence. rewrite E.
  intros X; repeat (destruct X as [X|X]; [discriminate X|]); exact X.
Qed.

(** *** C38.  Layout for scipy.optimize.least_squares.
    Measurements form a grid of [n] timestamps with [m] angles each, numbered row by row. *)
(** the column whose entry for timestamp r, angle k is [g r k] *)
Definition grid_column (n m : nat) (g : nat -> nat -> xr) : list xr := flat_map (fun r => map (g r) (seq 0 m)) (seq 0 n).
(** the number of values of an array *)
Definition count (s : list nat) : nat := fold_right Nat.mul 1 s.
(** the columns of one key: one column for a single value, otherwise one per timestamp, 0 at the measurements
    of the other timestamps *)
Definition key_columns (n m : nat) (a j : nd xr) : list (list xr) :=
  if count (shp a) =? 1 then [grid_column n m (fun r k => bget j [k; r])]
  else map (fun i => grid_column n m (fun r k => if r =? i then bget j [k; r] else Fin 0)) (seq 0 n).
Definition expected (n m : nat) (d : dict (nd xr)) (keys : list string) (js : list (nd xr)) : list (list xr) :=
  flat_map (fun kj => match dget d (fst kj) with Some a => key_columns n m a (snd kj) | None => [] end) (combine keys js).
(** the grid is the shape of the result of calc() *)
Definition grid (w : world) (o n m : nat) : Prop := exists a, snd (step w (OCalc o [])) = RetArr a /\ shp (row a 0) = [m; n].
Definition C38_intended : Prop := forall w o keys js n m d,
  good w (OJacobian o keys "scipy_least_squares") -> snd (step w (OJacobian o keys "list")) = RetJac (JList js) -> keys <> [] ->
  snd (step w (OParamDict o)) = RetDict d -> grid w o n m -> 0 < m -> 0 < n ->
  (forall key, In key keys -> exists a, dget d key = Some a /\ (count (shp a) = 1 \/ shp a = [1; n])) ->
  snd (step w (OJacobian o keys "scipy_least_squares")) = RetJac (JMatrix (expected n m d keys js)).

Lemma length_flat {A B} (f : A -> list B) l k : (forall a, length (f a) = k) -> length (flat_map f l) = length l * k.
Proof. intros H. induction l as [|a l IH]; cbn [flat_map length]; [reflexivity|]. rewrite app_length, H, IH. lia. Qed.
Lemma nsize_count a : nsize a = count (shp a).
Proof.
  unfold nsize, c_order_idx. induction (shp a) as [|d s IH]; [reflexivity|]. cbn [all_idx count fold_right].
  rewrite (length_flat _ _ d) by (intros r; now rewrite map_length, seq_length). rewrite IH. unfold count. lia.
Qed.
Lemma length_grid n m g : length (grid_column n m g) = n * m.
Proof. unfold grid_column. rewrite (length_flat _ _ m) by (intros r; now rewrite map_length, seq_length). now rewrite seq_length. Qed.
Lemma flat_map_map {A B D} (f : A -> B) (g : B -> list D) l : flat_map g (map f l) = flat_map (fun a => g (f a)) l.
Proof. induction l; cbn; congruence. Qed.
Lemma map_flat_map {A B D} (f : A -> list B) (g : B -> D) l : map g (flat_map f l) = flat_map (fun a => map g (f a)) l.
Proof. induction l; cbn; [reflexivity|]. rewrite map_app. congruence. Qed.
Lemma flat_map_ext' {A B} (f g : A -> list B) l : (forall a, In a l -> f a = g a) -> flat_map f l = flat_map g l.
Proof. intros H. induction l; cbn; [reflexivity|]. rewrite (H a) by now left. f_equal. apply IHl. intros b Hb. apply H. now right. Qed.
Lemma all_idx1 n : all_idx [n] = map (fun r => [r]) (seq 0 n).
Proof. cbn. now rewrite app_nil_r. Qed.
Lemma ravel_grid j n m : shp j = [m; n] -> ravel j = grid_column n m (fun r k => bget j [k; r]).
Proof.
  intros S. unfold ravel, c_order_idx, grid_column. rewrite S. change (all_idx [m; n]) with (flat_map (fun r => map (fun k => k :: r) (seq 0 m)) (all_idx [n])).
  rewrite all_idx1, flat_map_map, map_flat_map. apply flat_map_ext'. intros r Hr. rewrite map_map. apply map_ext_in. intros k Hk.
  apply in_seq in Hr, Hk. symmetry. apply bget_valid. rewrite S. cbn. lia.
Qed.
Lemma zeros_flat (h : nat -> list xr) m l : (forall r, In r l -> h r = zeros m) -> flat_map h l = zeros (length l * m).
Proof.
  induction l as [|r l IH]; intros H; cbn [flat_map length]; [reflexivity|]. rewrite H by now left. rewrite IH by (intros; apply H; now right).
  unfold zeros. rewrite <- repeat_app. f_equal.
Qed.
Lemma map_zeros {A} (l : list A) : map (fun _ => Fin 0%R) l = zeros (length l).
Proof. induction l; cbn; [reflexivity|]. unfold zeros in *. cbn. now rewrite IHl. Qed.
Lemma block_grid j n m : shp j = [m; n] ->
  block_rows j = Ok (map (fun i => grid_column n m (fun r k => if r =? i then bget j [k; r] else Fin 0)) (seq 0 n)).
Proof.
  intros S. unfold block_rows. rewrite S. f_equal. apply map_ext_in. intros i Hi. apply in_seq in Hi. unfold grid_column.
  replace (seq 0 n) with (seq 0 i ++ i :: seq (Datatypes.S i) (n - i - 1)).
  - rewrite flat_map_app. cbn [flat_map]. f_equal; [|f_equal].
    + rewrite (zeros_flat _ m); [now rewrite seq_length|]. intros r Hr. apply in_seq in Hr. replace (r =? i) with false by (symmetry; apply Nat.eqb_neq; lia).
      rewrite map_zeros. now rewrite seq_length.
    + apply map_ext_in. intros k Hk. apply in_seq in Hk. rewrite Nat.eqb_refl. symmetry. apply bget_valid. rewrite S. cbn. lia.
    + rewrite (zeros_flat _ m); [now rewrite seq_length|]. intros r Hr. apply in_seq in Hr. replace (r =? i) with false by (symmetry; apply Nat.eqb_neq; lia).
      rewrite map_zeros. now rewrite seq_length.
  - replace n with (i + Datatypes.S (n - i - 1)) at 2 by lia. rewrite seq_app. reflexivity.
Qed.
Lemma params_get C d k a : p_params C = Ok d -> dget d k = Some a -> dget (c_params C) k = Some (Ok a).
Proof.
  unfold p_params. revert d. induction (c_params C) as [|[k' v] l IH]; intros d H; cbn [rmap] in H; [apply ok_inj in H; subst d; discriminate|].
  cbn [fst snd] in H. destruct v as [b|]; [|discriminate H]. cbn [rbind] in H. destruct (rmap _ l) as [y|]; [|discriminate H]. cbn [rbind] in H.
  apply ok_inj in H. subst d. cbn [dget]. destruct (String.eqb k k'); [congruence|]. apply IH. reflexivity.
Qed.
Theorem C38_partial : forall w o keys js n m d,
  good w (OJacobian o keys "scipy_least_squares") -> snd (step w (OJacobian o keys "list")) = RetJac (JList js) -> keys <> [] ->
  snd (step w (OParamDict o)) = RetDict d -> 0 < n ->
  (forall key, In key keys -> exists a, dget d key = Some a) ->
  (forall j, In j js -> shp j = [m; n]) ->
  snd (step w (OJacobian o keys "scipy_least_squares")) = RetJac (JMatrix (expected n m d keys js)).
Proof.
  intros w o keys js n m d G H Nk Hd Pn Hk Hs. destruct (jac_obj _ _ _ _ _ H) as [r Hr].
  assert (Hc : at_conf w o (conf (w_heap w) r) (fnev_next (w_heap w) r)) by (exists r; auto).
  destruct (jac_inv _ _ _ _ _ _ (jac_any _ _ _ _ _ "list" G) Hc H) as (norm & En & Ej).
  rewrite (jac_fun w o _ _ G r Hr). unfold p_jacobian. rewrite En. cbn [rbind]. rewrite Ej. cbn [rbind].
  change (String.eqb "scipy_least_squares" "list") with false. change (String.eqb "scipy_least_squares" "scipy_least_squares") with true. cbv iota.
  apply (c_dict w _ o _ _ G Hc) in Hd. pose proof (entries_len _ _ _ _ Ej) as Len. clear Ej H.
  assert (R : p_all_rows (conf (w_heap w) r) (combine keys js) = Ok (expected n m d keys js)).
  { clear Nk Len. revert js Hs. induction keys as [|k ks IH]; intros js Hs; [reflexivity|]. destruct js as [|j js]; [reflexivity|].
    cbn [combine p_all_rows]. destruct (Hk k (or_introl eq_refl)) as [a Ha]. unfold p_key_rows. rewrite (params_get _ _ _ _ Hd Ha). cbn [rbind].
    rewrite IH; [|eapply jac_any; eassumption|intros key Hin; apply Hk; now right|intros j' Hj'; apply Hs; now right].
    unfold expected. cbn [combine flat_map fst snd]. rewrite Ha. unfold key_columns. rewrite nsize_count.
    destruct (count (shp a) =? 1); cbn [rbind].
    - rewrite (ravel_grid j n m) by (apply Hs; now left). reflexivity.
    - rewrite (block_grid j n m) by (apply Hs; now left). reflexivity. }
  rewrite R. cbn [rbind].
  assert (L : forall c, In c (expected n m d keys js) -> length c = n * m).
  { intros c Hin. unfold expected in Hin. apply in_flat_map in Hin. destruct Hin as ((k, j) & _ & Hin). cbn [fst snd] in Hin. destruct (dget d k) as [a|]; [|destruct Hin].
    unfold key_columns in Hin. destruct (_ =? 1).
    - destruct Hin as [<-|[]]. apply length_grid.
    - apply in_map_iff in Hin. destruct Hin as (i & <- & _). apply length_grid. }
  assert (Ne : expected n m d keys js <> []).
  { destruct keys as [|k ks]; [congruence|]. destruct js as [|j js]; [discriminate Len|]. unfold expected. cbn [combine flat_map fst snd].
    destruct (Hk k (or_introl eq_refl)) as [a ->]. unfold key_columns. destruct (_ =? 1); [discriminate|]. destruct n; [lia|]. discriminate. }
  unfold vstack_T. destruct (expected n m d keys js) as [|c cs] eqn:Ex; [congruence|].
  replace (forallb _ cs) with true; [reflexivity|]. symmetry. apply forallb_forall. intros c' Hc'. apply Nat.eqb_eq.
  rewrite (L c (or_introl eq_refl)), (L c' (or_intror Hc')). reflexivity.
Qed.
Print Assumptions C38_partial.

(** two angles, three timestamps; [sn]: the shape of NormBRDF and omega, [st]: of tau *)
Definition histS (sn st : list nat) : list op :=
  [ ONewScat (VHG (ESym "t") (Some 2) a_vol); ONewScat (SIso a_srf);
    ONew (Some 0) (Some 1) false false false None None (PNum (Fin 1));
    ONewArr (mk_nd [2] (fun i => Fin (match i with [0] => 1/2 | _ => 1 end)));
    ONewArr (mk_nd sn (fun _ => Fin (1/4))); ONewArr (mk_nd st (fun _ => Fin (1/2)));
    OSetGeometry 0 [("t_0", Some (PArr 0)); ("p_0", Some (PNum (Fin 0)))];
    OUpdate 0 [("tau", PArr 2); ("omega", PArr 1); ("NormBRDF", PArr 1); ("t", PNum (Fin (1/4)))] ].
Definition wS (seng : bool) (sn st : list nat) : world := fst (run (init seng true) (histS sn st)).
Lemma wS_good seng sn st p : (forall J h, adm1 J h p) -> good (wS seng sn st) p.
Proof.
  intros H. exists seng, (histS sn st). split; [|reflexivity].
  unfold histS. cbn [app]. repeat (split; [try exact I|]); try exact I; try apply H; intros [].
Qed.
Definition shapes_of (x : out) : list (list nat) := match x with RetJac (JList l) => map shp l | _ => [] end.
Definition grid_of (x : out) : list (list nat) := match x with RetArr a => [shp (row a 0)] | _ => [] end.
Definition widths (x : out) : list nat := match x with RetJac (JMatrix l) => map (@length xr) l | _ => [] end.
(** symengine not installed: the entry of NormBRDF does not have the dimension of NormBRDF *)
Theorem C38_refuted : ~ C38_intended.
Proof.
  intros C. set (w := wS false [1; 3] []) in *.
  assert (E1 : shapes_of (snd (step w (OJacobian 0 ["NormBRDF"] "list"))) = [[2]]) by (vm_compute; reflexivity).
  destruct (snd (step w (OJacobian 0 ["NormBRDF"] "list"))) as [| | |j0|d0| |] eqn:Ej; try discriminate E1.
  destruct j0 as [js|cs]; [|discriminate E1].
  assert (E2 : match snd (step w (OParamDict 0)) with RetDict d => map (fun kv => (fst kv, shp (snd kv))) d | _ => [] end = [("bsf", []); ("tau", [1]); ("omega", [1; 3]); ("NormBRDF", [1; 3]); ("t", [1])]) by (vm_compute; reflexivity).
  destruct (snd (step w (OParamDict 0))) as [| | | |d| |] eqn:Ed; try discriminate E2.
  assert (E3 : grid_of (snd (step w (OCalc 0 []))) = [[2; 3]]) by (vm_compute; reflexivity).
  destruct (is_arr_ex (snd (step w (OCalc 0 [])))) as [a Ha]; [vm_compute; reflexivity|]. rewrite Ha in E3.
  assert (Dn : exists b, dget d "NormBRDF" = Some b /\ shp b = [1; 3]).
  { destruct d as [|[k1 v1] [|[k2 v2] [|[k3 v3] [|[k4 v4] [|[k5 v5] [|? d]]]]]]; try discriminate E2. cbn in E2. injection E2 as -> _ -> _ -> _ -> E4 -> _.
    exists v4. split; [reflexivity|exact E4]. }
  destruct Dn as (b & Db & Sb).
  assert (E4 : widths (snd (step w (OJacobian 0 ["NormBRDF"] "scipy_least_squares"))) = [2; 2]) by (vm_compute; reflexivity).
  assert (G : good w (OJacobian 0 ["NormBRDF"] "scipy_least_squares")) by (apply wS_good; intros J h; exact I).
  assert (Gr : grid w 0 3 2) by (exists a; split; [exact Ha|]; cbn [grid_of] in E3; injection E3 as E3; exact E3).
  assert (Hk : forall key, In key ["NormBRDF"] -> exists a, dget d key = Some a /\ (count (shp a) = 1 \/ shp a = [1; 3])).
  { intros key [<-|[]]. exists b. split; [exact Db|]. right. exact Sb. }
  assert (N0 : ["NormBRDF"] <> []) by discriminate. assert (L2 : 0 < 2) by lia. assert (L3 : 0 < 3) by lia.
  pose proof (C w 0 ["NormBRDF"] js 3 2 d G Ej N0 Ed Gr L2 L3 Hk) as Q. clearbody w.
  rewrite Q in E4. clear - E1 E4 Db Sb.
  destruct js as [|j [|? ?]]; try discriminate E1. cbn [widths expected combine flat_map fst snd] in E4. rewrite Db in E4. unfold key_columns in E4. rewrite Sb in E4. discriminate E4.
Qed.
Print Assumptions C38_refuted.
Example C38_nonvacuous : exists js d, good (wS true [] [1; 3]) (OJacobian 0 ["tau"; "omega"; "t"] "scipy_least_squares") /\
  snd (step (wS true [] [1; 3]) (OJacobian 0 ["tau"; "omega"; "t"] "list")) = RetJac (JList js) /\ snd (step (wS true [] [1; 3]) (OParamDict 0)) = RetDict d /\
  (forall key, In key ["tau"; "omega"; "t"] -> exists a, dget d key = Some a) /\ (forall j, In j js -> shp j = [2; 3]) /\
  map (@length xr) (expected 3 2 d ["tau"; "omega"; "t"] js) = [6; 6; 6; 6; 6].
Proof.
  set (w := wS true [] [1; 3]).
  assert (E1 : shapes_of (snd (step w (OJacobian 0 ["tau"; "omega"; "t"] "list"))) = [[2; 3]; [2; 3]; [2; 3]]) by (vm_compute; reflexivity).
  destruct (snd (step w (OJacobian 0 ["tau"; "omega"; "t"] "list"))) as [| | |j0|d0| |] eqn:Ej; try discriminate E1.
  destruct j0 as [js|cs]; [|discriminate E1].
  assert (E2 : match snd (step w (OParamDict 0)) with RetDict d => map (fun kv => (fst kv, shp (snd kv))) d | _ => [] end = [("bsf", []); ("tau", [1; 3]); ("omega", [1]); ("NormBRDF", [1]); ("t", [1])]) by (vm_compute; reflexivity).
  destruct (snd (step w (OParamDict 0))) as [| | | |d| |] eqn:Ed; try discriminate E2.
  destruct d as [|[k1 v1] [|[k2 v2] [|[k3 v3] [|[k4 v4] [|[k5 v5] [|? d]]]]]]; try discriminate E2. cbn in E2. injection E2 as -> S1 -> S2 -> S3 -> S4 -> S5.
  exists js. eexists. split; [apply wS_good; intros J h; exact I|]. split; [reflexivity|]. split; [reflexivity|].
  split; [intros key [<-|[<-|[<-|[]]]]; eexists; reflexivity|].
  split.
  - intros j Hj. cbn [shapes_of] in E1. apply (in_map shp) in Hj. rewrite E1 in Hj. destruct Hj as [<-|[<-|[<-|[]]]]; reflexivity.
  - destruct js as [|j1 [|j2 [|j3 [|? ?]]]]; try discriminate E1. cbn [expected combine flat_map fst snd dget String.eqb Ascii.eqb Bool.eqb]. unfold key_columns. rewrite S2, S3, S5. reflexivity.
Qed.
