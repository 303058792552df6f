(** C62 and C82 - C86: complete sessions with the widgets Analyze and Analyze3D. *)
From Coq Require Import FunctionalExtensionality Ascii.
From Verif Require Export Ref3.
Open Scope string_scope. Open Scope nat_scope. Open Scope list_scope.

(** *** C62 for a whole session: the widget is created for any R with its own fn-functions, the sliders are moved
    and the range is changed in any order. *)
Theorem C62_session : forall w o kw sl es1 es2,
  hist w o -> own_functions w o -> snd (analyze_start o kw w) = Ok sl ->
  final_widget (sl, None) es1 = final_widget (sl, None) es2 ->
  let v := fst (analyze_start o kw w) in let b := final_widget (sl, None) es1 in
  snd (analyze_update o (fst b) (snd b) (play o (sl, None) es1 v)) = snd (analyze_update o (fst b) (snd b) (play o (sl, None) es2 v)).
Proof.
  intros w o kw sl es1 es2 H Ho S E v b. destruct (start_attached w o kw sl H Ho S) as [_ At].
  exact (C62_path_independent v o (sl, None) es1 es2 At E).
Qed.
Print Assumptions C62_session.

(** ** What update3d computes *)
Definition surfaces (n : nat) (us : list nat) (v : out) : res (list (nat * (nd xr * nd xr * nd xr))) :=
  match v with
  | RetArr res =>
      let* rs := nmul res (map1 xsin (theta_grid n)) in
      let* x := nmul rs (ncos (phi_grid n)) in
      let* y := nmul rs (map1 xsin (phi_grid n)) in
      let* z := nmul res (ncos (theta_grid n)) in
      rmap (fun k => if k <? last (shp x) 0 then Ok (k, (PlotInit.pick x k, PlotInit.pick y k, PlotInit.pick z k)) else Err IndexError) us
  | _ => Err TypeError
  end.
Lemma points_val o v w n us : snd (m_ang o TEx w) = Ok (theta_grid n) -> snd (m_ang o PEx w) = Ok (phi_grid n) ->
  snd ((do xyz <- points o v ;; let '(x, y, z) := xyz in
    lift (rmap (fun k => if k <? last (shp x) 0 then Ok (k, (PlotInit.pick x k, PlotInit.pick y k, PlotInit.pick z k)) else Err IndexError) us)) w) = surfaces n us v.
Proof.
  intros E1 E2. unfold points, bind. pose proof (m_ang_world o TEx w) as W1. destruct (m_ang o TEx w) as [w1 y1]. cbn [fst snd] in *. subst w1 y1.
  pose proof (m_ang_world o PEx w) as W2. destruct (m_ang o PEx w) as [w2 y2]. cbn [fst snd] in *. subst w2 y2.
  destruct v; try reflexivity. unfold surfaces, lift.
  destruct (nmul a (map1 xsin (theta_grid n))) as [rs|e]; cbn [rbind]; [|reflexivity].
  destruct (nmul rs (ncos (phi_grid n))) as [x|e]; cbn [rbind]; [|reflexivity].
  destruct (nmul rs (map1 xsin (phi_grid n))) as [y|e]; cbn [rbind]; [|reflexivity].
  destruct (nmul a (ncos (theta_grid n))) as [z|e]; reflexivity.
Qed.
Section Sess.
  Context (w : world) (o : nat) (r : rt1) (c : string) (n : nat) (kw : dict (list entry)) (us : list nat) (sl : dict slider).
  Hypothesis (Hr : obj (w_heap w) o = Ok r) (H : hist w o) (Hi : r_fnevals_input r = None) (St : snd (start3d o c n kw w) = Ok (us, sl)).
  Let v := fst (start3d o c n kw w).
  Lemma session_val es s : dget (move3d sl es) "inc" = Some s ->
    snd (update3d o c us (move3d sl es) (play3d o c us sl es v)) =
      let* a := op_res (snd (step (ref3 w o r (shows_interaction c) n (sl_val s) (slider_vals (without_inc (move3d sl es)))) (OCalc o nil))) in surfaces n us a.
  Proof.
    intros Es. destruct (played w o r c n kw us sl Hr H Hi St es) as [V U]. fold v in V, U. set (w' := play3d o c us sl es v) in *. clearbody w'.
    pose proof (shown_ref w o r c n kw us sl Hr H Hi St w' (move3d sl es) (sl_val s) (move3d_wi sl es) V U) as E.
    destruct (start3_state w o r c n kw us sl Hr H St) as (_ & _ & Ov & _).
    destruct (start3_grid w o r c n kw us sl Hr H Hi St) as (G1 & G2 & G3 & _ & _ & G6 & G7 & G8 & _). fold v in Ov, G2, G3, G6.
    destruct (update3 v o _ _ _ _ _ _ Ov G1 G6 G7 G8 G2 G3 w' c (without_inc (move3d sl es)) (sl_val s) (move3d_wi sl es) V U) as [V2 _].
    destruct (later3 v o _ _ _ _ _ _ Ov G1 G6 G7 G8 G2 G3 _ V2) as (r' & Hr' & _ & _ & _ & _ & _ & D1 & D2).
    rewrite <- E. unfold update3d. rewrite Es. unfold bind at 1.
    destruct (analyze3d_update o c (without_inc (move3d sl es)) (sl_val s) w') as [w2 [a|e]]; [|reflexivity]. cbn [fst snd rbind] in *.
    apply points_val; unfold m_ang, gets; cbn [snd]; rewrite Hr'; cbn [rbind]; [rewrite D1, mesh_tex_grid|rewrite D2, mesh_pex_grid]; reflexivity.
  Qed.
End Sess.

(** *** C82.  What Analyze3D shows depends only on where its sliders stand: for any R, whatever was done with it before,
    two ways of moving the sliders that leave them at the same values show the same surfaces. *)
Theorem C82_path_independent : forall w o c n kw us sl es1 es2,
  hist w o -> own_functions w o -> snd (start3d o c n kw w) = Ok (us, sl) -> move3d sl es1 = move3d sl es2 ->
  let v := fst (start3d o c n kw w) in
  snd (update3d o c us (move3d sl es1) (play3d o c us sl es1 v)) = snd (update3d o c us (move3d sl es2) (play3d o c us sl es2 v)).
Proof.
  intros w o c n kw us sl es1 es2 H (r & Hr & Hi) St E v.
  destruct (dget_keys_some (move3d sl es1) "inc") as [s Es]; [rewrite move3d_keys; exact (inc_in w o r c n kw us sl Hr H St)|].
  pose proof (session_val w o r c n kw us sl Hr H Hi St es1 s Es) as E1. rewrite E in Es. pose proof (session_val w o r c n kw us sl Hr H Hi St es2 s Es) as E2.
  fold v in E1, E2. rewrite E1, E2, E. reflexivity.
Qed.
Print Assumptions C82_path_independent.

(** *** C83.  The surface of a contribution has, for each exit direction of the grid (polar angle 0 to 89 degrees, azimuth
    -180 to 180 degrees), the point in that direction at the distance that R.calc() returns for that contribution
    when R has been set to these values by plain calls. *)
(** the contributions in the order in which R.calc() returns them *)
Definition contribution_codes : list Ascii.ascii := list_ascii_of_string "tsvi".
Definition selects_interaction (c : string) (b : bool) : Prop := b = true <-> In "i"%char (list_ascii_of_string c).
Definition exit_polar (n a : nat) : R := (INR a / INR (n - 1) * (89 * PI / 180))%R.
Definition exit_azimuth (n b : nat) : R := (INR b / INR (n - 1) * (2 * PI) - PI)%R.
(** the point (x, y, z) is at distance [d] in the exit direction of the grid position [a], [b] *)
Definition in_direction (n a b : nat) (d : xr) (x y z : xr) : Prop :=
  match d with
  | Fin t => x = Fin (t * sin (exit_polar n a) * cos (exit_azimuth n b))%R /\ y = Fin (t * sin (exit_polar n a) * sin (exit_azimuth n b))%R /\
             z = Fin (t * cos (exit_polar n a))%R
  | _ => True
  end /\ (d = NaN -> x = NaN /\ y = NaN /\ z = NaN).

Lemma index_code a : forall k, index 0 (String a EmptyString) "tsvi" = Some k -> nth_error contribution_codes k = Some a.
Proof.
  intros k E. assert (H : forall s m, index 0 (String a EmptyString) s = Some m -> nth_error (list_ascii_of_string s) m = Some a).
  { clear. induction s as [|x s IH]; intros m E; [discriminate|]. cbn [index] in E.
    destruct (prefix (String a EmptyString) (String x s)) eqn:P.
    - injection E as <-. cbn [prefix] in P. destruct (Ascii.ascii_dec a x) as [->|]; [reflexivity|discriminate].
    - destruct (index 0 (String a EmptyString) s) as [m'|] eqn:E'; [|discriminate]. injection E as <-. cbn. now apply IH. }
  exact (H _ _ E).
Qed.
Lemma contribs_codes c : forall us, use_contribs c = Ok us -> Forall2 (fun a k => nth_error contribution_codes k = Some a) (list_ascii_of_string c) us.
Proof.
  induction c as [|a c IH]; intros us E; [injection E as <-; constructor|]. cbn [use_contribs] in E.
  destruct (index 0 (String a EmptyString) "tsvi") as [k|] eqn:Ek; [|discriminate]. destruct (use_contribs c) as [l|]; [cbn [rbind] in E|discriminate]. injection E as <-.
  cbn [list_ascii_of_string]. constructor; [now apply index_code|now apply IH].
Qed.
Lemma codes_in cs us : Forall2 (fun a k => nth_error contribution_codes k = Some a) cs us -> forall k, In k us -> exists a, In a cs /\ nth_error contribution_codes k = Some a.
Proof. induction 1 as [|a m cs us E F IH]; intros k Hk; [destruct Hk|]. destruct Hk as [->|Hk]; [exists a; split; [now left|exact E]|]. destruct (IH k Hk) as (a' & A1 & A2). exists a'. split; [now right|exact A2]. Qed.
Lemma shows_selects c b : selects_interaction c b -> shows_interaction c = b.
Proof.
  unfold selects_interaction, shows_interaction. intros Hb.
  enough (E : (match index 0 "i" c with Some _ => true | None => false end) = true <-> In "i"%char (list_ascii_of_string c)).
  { destruct b, (match index 0 "i" c with Some _ => true | None => false end); try reflexivity; destruct Hb, E; intuition. }
  clear. induction c as [|x c IH]; [cbn; split; [discriminate|intros []]|].
  cbn [index]. destruct (prefix "i" (String x c)) eqn:P.
  - cbn [prefix] in P. destruct (Ascii.ascii_dec "i"%char x) as [<-|]; [|discriminate]. split; [intros _; now left|reflexivity].
  - cbn [list_ascii_of_string In]. assert (x <> "i"%char).
    { intros ->. cbn [prefix] in P. destruct (Ascii.ascii_dec "i"%char "i"%char); [destruct c; discriminate|congruence]. }
    destruct (index 0 "i" c); split; intros Q; try (right; now apply IH); try reflexivity; try discriminate; destruct Q as [Q|Q]; [congruence|]; now apply IH.
Qed.
Lemma nmul_grid A B n m : shp A = [n; n; m] -> shp B = [n; n] ->
  exists C, nmul A B = Ok C /\ shp C = [n; n; m] /\ forall a b k, a < n -> b < n -> k < m -> get C [a; b; k] = xmul (get A [a; b; k]) (get B [a; b]).
Proof.
  intros SA SB. unfold nmul, map2. rewrite SA, SB. cbn [bc_shape]. unfold bc_dim. rewrite Nat.eqb_refl. eexists. split; [reflexivity|]. split; [reflexivity|].
  intros a b k Ha Hb Hk. cbn [get]. unfold bget. rewrite SA, SB. cbn [proj hd tl].
  destruct (Nat.eqb_spec n 1) as [->|]; destruct (Nat.eqb_spec m 1) as [->|]; repeat match goal with H : ?x < 1 |- _ => assert (x = 0) by lia; clear H; subst end; reflexivity.
Qed.
Lemma in_dir n a b d : in_direction n a b d (xmul (xmul d (xsin (Fin (exit_polar n a)))) (xcos (Fin (exit_azimuth n b))))
  (xmul (xmul d (xsin (Fin (exit_polar n a)))) (xsin (Fin (exit_azimuth n b)))) (xmul d (xcos (Fin (exit_polar n a)))).
Proof. unfold in_direction. destruct d; cbn; split; try exact I; try discriminate; auto. Qed.

Theorem C83_points : forall w o c n kw us sl es s iq sg dB b,
  hist w o -> own_functions w o -> obs_flags w o iq sg dB -> selects_interaction c b ->
  snd (start3d o c n kw w) = Ok (us, sl) -> dget (move3d sl es) "inc" = Some s ->
  let v := fst (start3d o c n kw w) in
  let plain := fst (run w (by_calls o b sg n (sl_val s) (slider_vals (without_inc (move3d sl es))) (length (h_arrs (w_heap w))))) in
  let shown := snd (update3d o c us (move3d sl es) (play3d o c us sl es v)) in
  (forall A, snd (step plain (OCalc o nil)) = RetArr A -> shp A = [n; n; if b then 4 else 3] ->
    exists l, shown = Ok l /\ Forall2 (fun code kp => nth_error contribution_codes (fst kp) = Some code) (list_ascii_of_string c) l /\
      forall k x y z, In (k, (x, y, z)) l -> forall i j, i < n -> j < n -> in_direction n i j (get A [i; j; k]) (get x [i; j]) (get y [i; j]) (get z [i; j])) /\
  (forall e, snd (step plain (OCalc o nil)) = Raised e -> shown = Err e).
Proof.
  intros w o c n kw us sl es s iq sg dB b H (r & Hr & Hi) (r' & Hr' & _ & Hsg & _) Hb St Es v plain shown. rewrite Hr in Hr'. injection Hr' as <-.
  pose proof (session_val w o r c n kw us sl Hr H Hi St es s Es) as E. fold v in E. fold shown in E. unfold ref3 in E. rewrite (shows_selects c b Hb), Hsg in E. fold plain in E. clearbody plain shown.
  destruct (start3_state w o r c n kw us sl Hr H St) as (Us & _). pose proof (contribs_codes _ _ Us) as Cd.
  assert (Lt : forall k, In k us -> k < (if b then 4 else 3)).
  { intros k Hk. destruct (codes_in _ _ Cd k Hk) as (a & Ha & Na).
    assert (k < 4) by (change 4 with (length contribution_codes); apply nth_error_Some; rewrite Na; discriminate). destruct b; [assumption|]. destruct (Nat.eq_dec k 3) as [->|]; [|lia].
    cbn in Na. injection Na as <-. apply Hb in Ha. discriminate. }
  split; [|intros e Ee; rewrite E, Ee; reflexivity].
  intros A EA SA. rewrite E, EA. cbn [op_res rbind surfaces].
  destruct (nmul_grid A (map1 xsin (theta_grid n)) n _ SA eq_refl) as (rs & -> & S1 & V1). cbn [rbind].
  destruct (nmul_grid rs (ncos (phi_grid n)) n _ S1 eq_refl) as (x & -> & S2 & V2). cbn [rbind].
  destruct (nmul_grid rs (map1 xsin (phi_grid n)) n _ S1 eq_refl) as (y & -> & S3 & V3). cbn [rbind].
  destruct (nmul_grid A (ncos (theta_grid n)) n _ SA eq_refl) as (z & -> & S4 & V4). cbn [rbind].
  rewrite S2. cbn [last].
  assert (G : forall us' cs, (forall k, In k us' -> k < (if b then 4 else 3)) -> Forall2 (fun a k => nth_error contribution_codes k = Some a) cs us' ->
    exists l, rmap (fun k => if k <? (if b then 4 else 3) then Ok (k, (PlotInit.pick x k, PlotInit.pick y k, PlotInit.pick z k)) else Err IndexError) us' = Ok l /\
      Forall2 (fun code kp => nth_error contribution_codes (fst kp) = Some code) cs l /\
      forall k x' y' z', In (k, (x', y', z')) l -> k < (if b then 4 else 3) /\ x' = PlotInit.pick x k /\ y' = PlotInit.pick y k /\ z' = PlotInit.pick z k).
  { clear - S2. induction us' as [|k us' IH]; intros cs L F; inversion F; subst.
    - exists []. split; [reflexivity|]. split; [constructor|]. intros ? ? ? ? [].
    - destruct (IH l (fun k' Hk => L k' (or_intror Hk)) H3) as (l' & E & F' & P). cbn [rmap].
      replace (k <? (if b then 4 else 3)) with true by (symmetry; apply Nat.ltb_lt, L; now left). cbn [rbind]. rewrite E. cbn [rbind].
      eexists. split; [reflexivity|]. split; [constructor; assumption|].
      intros k' x' y' z' [Q|Q]; [|now apply P]. injection Q as <- <- <- <-. split; [apply L; now left|auto]. }
  destruct (G us _ Lt Cd) as (l & El & Fl & Pl). exists l. split; [exact El|]. split; [exact Fl|].
  intros k x' y' z' Hin i j Hi' Hj. destruct (Pl k x' y' z' Hin) as (Hk & -> & -> & ->). unfold PlotInit.pick. cbn [get app].
  rewrite V2, V3, V4, V1 by assumption. apply in_dir.
Qed.
Print Assumptions C83_points.

(** *** C84.  Analyze3D does not look at R.int_Q: the same slider positions show the same surfaces whether it is True or
    False (the interaction is part of "Total" exactly if "i" is among the contributions, C83). *)
Theorem C84_ignores_int_Q : forall w o iq sg dB iq' c n kw us sl es,
  hist w o -> own_functions w o -> obs_flags w o iq sg dB ->
  let w2 := fst (step w (OSetFlags o iq' sg dB)) in
  snd (start3d o c n kw w) = Ok (us, sl) -> snd (start3d o c n kw w2) = Ok (us, sl) ->
  snd (update3d o c us (move3d sl es) (play3d o c us sl es (fst (start3d o c n kw w)))) =
  snd (update3d o c us (move3d sl es) (play3d o c us sl es (fst (start3d o c n kw w2)))).
Proof.
  intros w o iq sg dB iq' c n kw us sl es H (r & Hr & Hi) (r' & Hr' & Hq & Hs & Hd) w2 St St2. assert (r' = r) by congruence. subst r'. clear Hr'.
  assert (X : w2 = set_heap w (hput (w_heap w) o (with_flags r iq' sg dB))).
  { unfold w2. cbn [step]. unfold as_out, bind, get_obj, gets. rewrite Hr. reflexivity. }
  assert (O2 : obj (w_heap w2) o = Ok (with_flags r iq' sg dB)) by (rewrite X; eapply obj_hput_same; exact Hr).
  assert (H2 : hist w2 o) by (apply hist_step; auto; try (intros; exact I); try exact (fun x => x); try (eapply mentions_obj; [reflexivity|exact Hr|exact I])).
  destruct (dget_keys_some (move3d sl es) "inc") as [s Es]; [rewrite move3d_keys; exact (inc_in w o r c n kw us sl Hr H St)|].
  pose proof (session_val w o r c n kw us sl Hr H Hi St es s Es) as E1. pose proof (session_val w2 o _ c n kw us sl O2 H2 Hi St2 es s Es) as E2.
  rewrite E1, E2. enough (ref3 w2 o (with_flags r iq' sg dB) (shows_interaction c) n (sl_val s) (slider_vals (without_inc (move3d sl es))) =
    ref3 w o r (shows_interaction c) n (sl_val s) (slider_vals (without_inc (move3d sl es)))) as -> by reflexivity.
  assert (A2 : h_arrs (w_heap w2) = h_arrs (w_heap w)) by (rewrite X; reflexivity).
  unfold ref3, by_calls. rewrite A2. change (r_sig0 (with_flags r iq' sg dB)) with sg. rewrite Hs. rewrite !run_cons.
  enough (fst (step w2 (OSetFlags o (shows_interaction c) sg false)) = fst (step w (OSetFlags o (shows_interaction c) sg false))) as -> by reflexivity.
  cbn [step]. unfold as_out, bind, get_obj, gets. rewrite Hr, O2. unfold put_obj. cbn [fst].
  rewrite X. unfold set_heap. cbn [w_heap w_on w_caches]. f_equal. apply (hput_hput (w_heap w) o (with_flags r iq' sg dB) (with_flags r (shows_interaction c) sg false)).
Qed.
Print Assumptions C84_ignores_int_Q.

(** ** What R is left with *)
Lemma dget_wi sl k : dget (without_inc sl) k = if String.eqb k "inc" then None else dget sl k.
Proof.
  induction sl as [|[k' s] sl IH]; [destruct (String.eqb k "inc"); reflexivity|]. unfold without_inc in *. cbn [filter fst].
  destruct (String.eqb k' "inc") eqn:E; cbn [negb dget].
  - rewrite IH. destruct (String.eqb k "inc") eqn:F; [reflexivity|]. destruct (String.eqb k k') eqn:D; [|reflexivity].
    apply String.eqb_eq in E, D. subst. discriminate F.
  - rewrite IH. destruct (String.eqb k "inc") eqn:F; [|reflexivity]. destruct (String.eqb k k') eqn:D; [|reflexivity].
    apply String.eqb_eq in F, D. subst. discriminate E.
Qed.
Section Left.
  Context (w : world) (o : nat) (r : rt1) (c : string) (n : nat) (kw : dict (list entry)) (us : list nat) (sl : dict slider).
  Hypothesis (Hr : obj (w_heap w) o = Ok r) (H : hist w o) (Hi : r_fnevals_input r = None) (St : snd (start3d o c n kw w) = Ok (us, sl)).
  Let v := fst (start3d o c n kw w).
  Let N := dkeys (without_inc sl).
  Lemma start3_nodup : NoDup (dkeys kw) -> NoDup (dkeys sl).
  Proof.
    intros K. destruct (start3_state w o r c n kw us sl Hr H St) as (_ & _ & _ & _ & _ & _ & _ & _ & symbs & sl0 & _ & E & ->).
    apply dkeys_dset_nodup. rewrite (sliders_keys _ _ E). now apply NoDup_filter_keys.
  Qed.
  Lemma session_left es s : dget (move3d sl es) "inc" = Some s -> exists z P,
    let u := fst (update3d o c us (move3d sl es) (play3d o c us sl es v)) in
    obj (w_heap u) o = Ok z /\ only_values3 o N v u /\ like N (r3 w r sl) z /\ hclosed (w_heap u) /\
    r_params z = dupdate P (map (fun kv => (fst kv, S1d (snd kv))) (slider_vals (without_inc (move3d sl es)))) /\
    (forall k, ~ In k N -> dget P k = dget (r_params (r3 w r sl)) k) /\ r_mono z = false /\
    read_ang (w_heap u) z T0 = Ok (inc_grid n (sl_val s)) /\ read_ang (w_heap u) z TEx = Ok (theta_grid n) /\ read_ang (w_heap u) z PEx = Ok (phi_grid n) /\
    read_ang (w_heap u) z P0 = Ok (mk_nd [1] (fun _ => Fin 0%R)).
  Proof.
    intros Es. destruct (played w o r c n kw us sl Hr H Hi St es) as [V U]. fold v in V, U. set (w' := play3d o c us sl es v) in *. clearbody w'.
    destruct (start3_state w o r c n kw us sl Hr H St) as (_ & _ & Ov & _).
    destruct (start3_grid w o r c n kw us sl Hr H Hi St) as (G1 & G2 & G3 & _ & G5 & G6 & G7 & G8 & _). fold v in Ov, G2, G3, G5, G6.
    pose proof (move3d_wi sl es : dkeys (without_inc (move3d sl es)) = N) as K.
    destruct (update3 v o _ _ _ _ _ _ Ov G1 G6 G7 G8 G2 G3 w' c (without_inc (move3d sl es)) (sl_val s) K V U) as [V2 _].
    destruct (later3 v o _ _ _ _ _ _ Ov G1 G6 G7 G8 G2 G3 _ V2) as (z & Hz & Lz & Gz & Cz & _ & _ & D1 & D2).
    destruct (later3 v o _ _ _ _ _ _ Ov G1 G6 G7 G8 G2 G3 _ V) as (r' & Hr' & L & G' & C' & I' & J' & T' & P'). fold N in I', L, Lz. rewrite <- K in I'.
    destruct (one_left w' o r' _ _ c (without_inc (move3d sl es)) (sl_val s) (mesh_tex n) Hr' G' U C' I') as (z' & Hz' & Pz & Az & Ar).
    pose proof (one_update w' o r' _ _ c (without_inc (move3d sl es)) (sl_val s) _ _ Hr' G' U C' I' T' P') as Eu.
    apply (f_equal fst) in Eu. cbn [fst] in Eu. rewrite <- Eu in Hz', Ar. clear Eu.
    rewrite (update3d_world _ _ _ _ _ _ Es).
    set (u := fst (analyze3d_update o c (without_inc (move3d sl es)) (sl_val s) w')) in *. clearbody u. cbv zeta.
    rewrite Hz in Hz'. apply ok_eq in Hz'. subst z'. exists z, (r_params r').
    destruct G' as (_ & _). destruct Gz as (Mo & _).
    split; [exact Hz|]. split; [exact V2|]. split; [exact Lz|]. split; [exact Cz|]. split; [exact Pz|].
    split; [apply L|]. split; [exact Mo|].
    split; [unfold read_ang, stored_ang; rewrite Az; cbn [deref rbind]; rewrite Ar, nth_error_app2, Nat.sub_diag by lia; cbn [nth_error opt_res rbind]; rewrite full_grid; reflexivity|].
    split; [rewrite D1, mesh_tex_grid; reflexivity|]. split; [rewrite D2, mesh_pex_grid; reflexivity|].
    rewrite (ov3_read o N v u (r3 w r sl) z P0 V2 (G6 _ _ Ov) Lz); [rewrite G5, RMicromega.Q2R_0; reflexivity|apply G1|discriminate].
  Qed.
End Left.

(** ** The check *)
Lemma conf_like h h1 r q v s : scat_at h (r_V r) = Ok v -> scat_at h (r_SRF r) = Ok s -> h_scats h1 = h_scats h ->
  r_V q = r_V r -> r_SRF q = r_SRF r -> r_params q = r_params r -> r_def q = r_def r ->
  let C := conf h1 q in c_V C = Ok v /\ c_SRF C = Ok s /\ dkeys (c_params C) = dkeys (r_params r) /\
  forall p e, c_def C p = CStr e <-> r_def r p = DStr e.
Proof.
  intros Hv Hs E Q1 Q2 Q3 Q4 C.
  assert (X : forall n, scat_at h1 n = scat_at h n) by (intros n; unfold scat_at; now rewrite E).
  split; [unfold C, conf; cbn [c_V]; now rewrite Q1, X|]. split; [unfold C, conf; cbn [c_SRF]; now rewrite Q2, X|].
  split; [unfold C, conf; cbn [c_params]; rewrite Q3; apply dkeys_map|].
  intros p e. unfold C, conf. cbn [c_def]. rewrite Q4. destruct (r_def r p); cbn [cdef_of]; split; congruence.
Qed.
Lemma sliders3_at w o c n kw d us : reached w -> readable w o d -> use_contribs c = Ok us -> exists used,
  (forall k, used k = true <-> needed w o k) /\
  ((exists s, needed w o s /\ ~ In s (dkeys kw) /\ dget d s = None) -> snd (start3d o c n kw w) = Err AssertionError) /\
  ((forall s, needed w o s -> In s (dkeys kw) \/ dget d s <> None) ->
     snd (start3d o c n kw w) = let* sl0 := init_sliders (filter (fun kv => used (fst kv)) kw) in Ok (us, dset sl0 "inc" inc_slider)).
Proof.
  intros G Rd Hus. destruct (readable_rec w o d Rd) as (r & v & s & Hr & Hv & Hs & Kd & _).
  destruct (geo3_at w o r c n Hr) as (_ & _ & O3 & _ & Sc & _ & _ & Gu & _ & _ & Gr & _). specialize (Gu us Hus). specialize (Gr G).
  set (i := length (h_arrs (w_heap w))) in *.
  set (w1 := g3 w o r n) in *.
  destruct (conf_like (w_heap w) (w_heap w1) r (geo3_obj r i) v s Hv Hs Sc eq_refl eq_refl eq_refl eq_refl) as (CV & CS & CK & CD). cbv zeta in *. set (C := conf (w_heap w1) (geo3_obj r i)) in *.
  destruct (check_at w1 o _ (dkeys kw) Gr O3) as [Sx (r' & Hh & Hst)]. fold C in Sx.
  destruct (p_used_in C v s CV CS) as (l & El & Il). clearbody C w1.
  assert (Nd : forall x, In x l <-> needed w o x).
  { intros x. rewrite Il, (needed_rec w o r v s x Hr Hv Hs). split; intros [N U]; (split; [exact N|]); destruct U as [(p & e & D & I)|U]; auto; left; exists p, e; (split; [now apply CD|exact I]). }
  assert (Y : snd (start3d o c n kw w) = let* symbs := p_check C (dkeys kw) in let* sl0 := init_sliders (filter (fun kv => mem (fst kv) symbs) kw) in Ok (us, dset sl0 "inc" inc_slider)).
  { unfold start3d, analyze3d_sliders. unfold bind. rewrite Gu, <- Sx. destruct (check_params o (dkeys kw) [] w1) as [u' [symbs|e]]; [|reflexivity]. cbn [snd fst rbind] in *. unfold lift.
    destruct (init_sliders (filter (fun kv => mem (fst kv) symbs) kw)) as [sl0|e]; [|reflexivity]. unfold ret. cbn [rbind snd]. rewrite call_op_eq.
    rewrite (update_out u' o _ r') by (rewrite Hh; eapply obj_hput_same; exact O3). reflexivity. }
  exists (fun k => mem k l). split; [intros k; rewrite <- Nd; apply mem_In|]. unfold p_check in Y. rewrite El in Y. cbn [rbind] in Y.
  split.
  - intros (x & Nx & Nk & Nv). rewrite Y.
    assert (In x (filter (fun s0 => negb (mem s0 (dkeys (c_params C)))) (filter (fun s0 => negb (mem s0 (dkeys kw))) l))) as Ix.
    { apply filter_In. split; [apply filter_In; split; [now apply Nd|]|]; apply negb_true_iff, mem_not_In; [exact Nk|]. rewrite CK, <- Kd. now apply dget_None_notin. }
    destruct (filter _ (filter _ l)); [contradiction|reflexivity].
  - intros Hall. rewrite Y.
    assert (filter (fun s0 => negb (mem s0 (dkeys (c_params C)))) (filter (fun s0 => negb (mem s0 (dkeys kw))) l) = []) as ->; [|reflexivity].
    destruct (filter (fun s0 => negb (mem s0 (dkeys (c_params C)))) (filter (fun s0 => negb (mem s0 (dkeys kw))) l)) as [|x t] eqn:F; [reflexivity|exfalso].
    assert (Ix : In x (x :: t)) by (now left). rewrite <- F in Ix. apply filter_In in Ix. destruct Ix as [Ix N2]. apply filter_In in Ix. destruct Ix as [Ix N1].
    apply negb_true_iff, mem_not_In in N1. apply negb_true_iff, mem_not_In in N2. rewrite CK, <- Kd in N2.
    destruct (Hall x (proj1 (Nd x) Ix)) as [H|H]; [contradiction|]. apply H. now apply dget_None_notin.
Qed.

(** *** C86.  Analyze3D(R, contributions, **parameters): a letter other than t, s, v, i raises ValueError; a needed parameter
    that is neither given nor stored raises AssertionError; otherwise the sliders are those of exactly the given
    parameters that are needed, and one for the incidence angle from 0.1 to 89.9 degrees, starting at 45. *)
Theorem C86_contributions : forall w o c n kw r a,
  obj (w_heap w) o = Ok r -> In a (list_ascii_of_string c) -> ~ In a ["t"; "s"; "v"; "i"]%char -> snd (start3d o c n kw w) = Err ValueError.
Proof.
  intros w o c n kw r a Hr Ha Hn.
  assert (E : use_contribs c = Err ValueError).
  { induction c as [|x c IH]; [destruct Ha|]. cbn [use_contribs]. destruct (index 0 (String x EmptyString) "tsvi") as [k|] eqn:Ek; [|reflexivity].
    destruct Ha as [->|Ha]; [|rewrite (IH Ha); reflexivity]. apply index_code, nth_error_In in Ek. contradiction. }
  destruct (geo3_at w o r c n Hr) as (_ & _ & _ & _ & _ & _ & _ & _ & Ge & _). specialize (Ge _ E).
  unfold start3d, analyze3d_sliders, bind. rewrite Ge. reflexivity.
Qed.
Print Assumptions C86_contributions.
Lemma codes_ok c : (forall a, In a (list_ascii_of_string c) -> In a ["t"; "s"; "v"; "i"]%char) -> exists us, use_contribs c = Ok us.
Proof.
  induction c as [|x c IH]; intros Hc; [exists []; reflexivity|]. destruct IH as [us E]; [intros a Ha; apply Hc; now right|].
  cbn [use_contribs]. rewrite E. destruct (Hc x (or_introl eq_refl)) as [<-|[<-|[<-|[<-|[]]]]]; eexists; reflexivity.
Qed.
Theorem C86_missing : forall w o c n kw d s,
  reached w -> readable w o d -> (forall a, In a (list_ascii_of_string c) -> In a ["t"; "s"; "v"; "i"]%char) ->
  needed w o s -> ~ In s (dkeys kw) -> dget d s = None -> snd (start3d o c n kw w) = Err AssertionError.
Proof.
  intros w o c n kw d s G Rd Hc N K V. destruct (codes_ok c Hc) as [us Us]. destruct (sliders3_at w o c n kw d us G Rd Us) as (_ & _ & X & _). apply X. eauto.
Qed.
Print Assumptions C86_missing.
Theorem C86_shown : forall w o c n kw d,
  reached w -> readable w o d -> (forall a, In a (list_ascii_of_string c) -> In a ["t"; "s"; "v"; "i"]%char) ->
  (forall s, needed w o s -> In s (dkeys kw) \/ dget d s <> None) ->
  exists used, (forall k, used k = true <-> needed w o k) /\
  match init_sliders (filter (fun kv => used (fst kv)) kw) with
  | Ok sl0 => exists us sl, snd (start3d o c n kw w) = Ok (us, sl) /\
      (exists s, dget sl "inc" = Some s /\ sl_min s = (1 / 10)%R /\ sl_max s = (899 / 10)%R /\ sl_val s = 45%R) /\
      forall k, k <> "inc" -> dget sl k = dget sl0 k
  | Err e => snd (start3d o c n kw w) = Err e
  end.
Proof.
  intros w o c n kw d G Rd Hc Hall. destruct (codes_ok c Hc) as [us Us]. destruct (sliders3_at w o c n kw d us G Rd Us) as (used & U & _ & X). specialize (X Hall).
  exists used. split; [exact U|]. destruct (init_sliders (filter (fun kv => used (fst kv)) kw)) as [sl0|e]; cbn [rbind] in X; [|exact X].
  exists us, (dset sl0 "inc" inc_slider). split; [exact X|]. split.
  - exists inc_slider. split; [apply dget_dset_same|]. split; [reflexivity|]. split; reflexivity.
  - intros k Hk. apply dget_dset_other. congruence.
Qed.
Print Assumptions C86_shown.

(** *** C87.  Whatever was done with the sliders, after an update R is bistatic, evaluated on the grid of exit directions for
    the incidence angle of the slider, in linear units; int_Q and sig0 are as before the widget was created. *)
Theorem C87_left : forall w o c n kw us sl es s iq sg dB,
  hist w o -> own_functions w o -> obs_flags w o iq sg dB -> snd (start3d o c n kw w) = Ok (us, sl) -> dget (move3d sl es) "inc" = Some s ->
  let u := fst (update3d o c us (move3d sl es) (play3d o c us sl es (fst (start3d o c n kw w)))) in
  obs_mode u o false /\ obs_flags u o iq sg false /\
  snd (step u (OReadAngle o T0)) = RetArr (mk_nd [n; n] (fun _ => Fin (sl_val s * PI / 180)%R)) /\
  snd (step u (OReadAngle o TEx)) = RetArr (mk_nd [n; n] (fun i => Fin (exit_polar n (nth 0 i 0)))) /\
  snd (step u (OReadAngle o PEx)) = RetArr (mk_nd [n; n] (fun i => Fin (exit_azimuth n (nth 1 i 0)))) /\
  snd (step u (OReadAngle o P0)) = RetArr (mk_nd [1] (fun _ => Fin 0%R)).
Proof.
  intros w o c n kw us sl es s iq sg dB H (r & Hr & Hi) (r' & Hr' & Hq & Hs & Hd) St Es u. assert (r' = r) by congruence. subst r'. clear Hr'.
  destruct (session_left w o r c n kw us sl Hr H Hi St es s Es) as (z & P & Hz & _ & L & _ & _ & _ & Mo & R1 & R2 & R3 & R4). fold u in Hz, R1, R2, R3, R4. clearbody u.
  destruct L as (_ & _ & L1 & L2 & L3 & _).
  split; [exists z; auto|].
  split; [exists z; split; [exact Hz|]; rewrite L1, L2, L3; split; [exact Hq|split; [exact Hs|reflexivity]]|].
  rewrite !(read_angle_out _ _ _ _ Hz), R1, R2, R3, R4. split; [reflexivity|]. split; [reflexivity|]. split; reflexivity.
Qed.
Print Assumptions C87_left.

(** *** C85.  The sliders set the parameters of R.  As stated: for every parameter that was given and is needed there is a
    slider over the given range, and after an update R.param_dict has its value. *)
Definition C85_for (P : string -> Prop) : Prop := forall w o c n kw us sl es k mn mx rest,
  hist w o -> own_functions w o -> (exists d, readable w o d) -> NoDup (dkeys kw) -> snd (start3d o c n kw w) = Ok (us, sl) ->
  In (k, ENumb mn :: ENumb mx :: rest) kw -> needed w o k -> P k ->
  let u := fst (update3d o c us (move3d sl es) (play3d o c us sl es (fst (start3d o c n kw w)))) in
  exists s d, dget (move3d sl es) k = Some s /\ sl_min s = mn /\ sl_max s = mx /\
    snd (step u (OParamDict o)) = RetDict d /\ dget d k = Some (mk_nd [1] (fun _ => Fin (sl_val s))).
Definition C85_intended : Prop := C85_for (fun _ => True).

(** every entry of R.param_dict after an update; the parameter "inc" keeps its value *)
Theorem C85_parameters : forall w o c n kw us sl es d,
  hist w o -> own_functions w o -> NoDup (dkeys kw) -> snd (start3d o c n kw w) = Ok (us, sl) -> snd (step w (OParamDict o)) = RetDict d ->
  let u := fst (update3d o c us (move3d sl es) (play3d o c us sl es (fst (start3d o c n kw w)))) in
  exists d', snd (step u (OParamDict o)) = RetDict d' /\
    forall k, dget d' k = if String.eqb k "inc" then dget d k
                          else match dget (move3d sl es) k with Some s => Some (mk_nd [1] (fun _ => Fin (sl_val s))) | None => dget d k end.
Proof.
  intros w o c n kw us sl es d H (r & Hr & Hi) Nk St Hd u.
  destruct (dget_keys_some (move3d sl es) "inc") as [s Es]; [rewrite move3d_keys; exact (inc_in w o r c n kw us sl Hr H St)|].
  destruct (session_left w o r c n kw us sl Hr H Hi St es s Es) as (z & P & Hz & Ov & L & Cz & Pz & Po & _). fold u in Hz, Ov, Cz. clearbody u.
  pose proof (start3_state w o r c n kw us sl Hr H St) as (_ & _ & _ & Av & _). pose proof (params3 w o r sl Hr H) as P3.
  pose proof (start3_nodup w o r c n kw us sl Hr H St Nk) as Ns. set (q := r3 w r sl) in *. clearbody q.
  destruct (params_total _ _ (Cz _ _ Hz)) as (d' & D'). exists d'.
  split; [cbn [step]; unfold as_out, gets; rewrite Hz; cbn [rbind]; rewrite D'; reflexivity|].
  assert (Dw : params_nd (w_heap w) r = Ok d).
  { cbn [step] in Hd. unfold as_out, gets in Hd. rewrite Hr in Hd. cbn [rbind] in Hd. destruct (params_nd (w_heap w) r); [injection Hd as <-; reflexivity|discriminate]. }
  intros k. rewrite (PlotFacts.params_nd_get _ _ _ k D'), (PlotFacts.params_nd_get _ _ _ k Dw), Pz.
  assert (Nw : NoDup (dkeys (without_inc (move3d sl es)))) by (rewrite wi_keys, move3d_keys; now apply NoDup_filter).
  assert (Y : dget (without_inc (move3d sl es)) k = if String.eqb k "inc" then None else dget (move3d sl es) k) by apply dget_wi.
  assert (Old : dget (without_inc (move3d sl es)) k = None ->
    match dget (dupdate P (map (fun kv => (fst kv, S1d (snd kv))) (slider_vals (without_inc (move3d sl es))))) k with Some v => match sderef (w_heap u) v with Ok a => Some a | Err _ => None end | None => None end =
    match dget (r_params r) k with Some v => match sderef (w_heap w) v with Ok a => Some a | Err _ => None end | None => None end).
  { intros Z. apply dget_None_notin in Z. rewrite dget_dupdate_out by (rewrite dkeys_map, slider_vals_keys; exact Z). rewrite move3d_wi in Z. rewrite Po, P3 by exact Z.
    rewrite dget_dupdate_out by (rewrite dkeys_map, slider_vals_keys; exact Z).
    destruct (dget (r_params r) k) as [x|] eqn:Ex; [|reflexivity]. apply dget_dict_In in Ex. pose proof (cl_par _ _ (hist_closed _ _ H _ _ Hr) _ _ Ex) as Hv.
    destruct (o3_arrs _ _ _ _ Ov) as (ext & Ae). rewrite Av, <- app_assoc in Ae.
    assert (Dr : deref (w_heap u) (sv_val x) = deref (w_heap w) (sv_val x)) by (apply (deref_ext _ _ _ _ Ae Hv)).
    destruct x as [x|x]; cbn [sv_val sderef] in *; rewrite Dr; reflexivity. }
  destruct (String.eqb k "inc"); [exact (Old Y)|]. destruct (dget (move3d sl es) k) as [s0|] eqn:E0; [|exact (Old Y)].
  rewrite (dget_dupdate_last _ P k (S1d (PNum (Fin (sl_val s0))))).
  - reflexivity.
  - rewrite dkeys_map, slider_vals_keys. exact Nw.
  - apply dget_dict_In in Y. apply in_map_iff. exists (k, PNum (Fin (sl_val s0))). split; [reflexivity|]. unfold slider_vals. apply in_map_iff. exists (k, s0). auto.
Qed.
Print Assumptions C85_parameters.
Lemma move3d_range es : forall sl k s, dget sl k = Some s -> exists s', dget (move3d sl es) k = Some s' /\ sl_min s' = sl_min s /\ sl_max s' = sl_max s.
Proof.
  induction es as [|[j x] es IH]; intros sl k s E; [exists s; auto|]. cbn [move3d].
  assert (X : exists s1, dget (next_sliders sl (EvSlide j x)) k = Some s1 /\ sl_min s1 = sl_min s /\ sl_max s1 = sl_max s).
  { clear IH. induction sl as [|[k' a] sl IH]; [discriminate|]. cbn [next_sliders map dget fst snd] in *.
    destruct (String.eqb j k') eqn:D; cbn [dget fst]; destruct (String.eqb k k'); try (apply IH; exact E); injection E as <-; eexists; split; try reflexivity; split; reflexivity. }
  destruct X as (s1 & E1 & M1 & M2). destruct (IH _ _ _ E1) as (s2 & E2 & M3 & M4). exists s2. split; [exact E2|]. split; congruence.
Qed.
Theorem C85_partial : C85_for (fun k => k <> "inc").
Proof.
  intros w o c n kw us sl es k mn mx rest H Ho (d & Rd) Nk St Hk Hn Ni u.
  pose proof (hist_reached _ _ H) as G. pose proof Ho as (r & Hr & Hi).
  pose proof (start3_state w o r c n kw us sl Hr H St) as (Us & _).
  destruct (sliders3_at w o c n kw d us G Rd Us) as (used & U & Miss & Okk).
  assert (Hall : forall x, needed w o x -> In x (dkeys kw) \/ dget d x <> None).
  { intros x Nx. destruct (in_dec string_dec x (dkeys kw)) as [|N]; [now left|]. right. intros Z. rewrite Miss in St by eauto. discriminate. }
  specialize (Okk Hall). rewrite St in Okk. destruct (init_sliders (filter (fun kv => used (fst kv)) kw)) as [sl0|e] eqn:E0; [|discriminate]. cbn [rbind] in Okk.
  assert (Esl : sl = dset sl0 "inc" inc_slider) by congruence.
  assert (Hf : In (k, ENumb mn :: ENumb mx :: rest) (filter (fun kv => used (fst kv)) kw)) by (apply filter_In; split; [exact Hk|now apply U]).
  pose proof (sliders_keys _ _ E0) as Ks. assert (N0 : NoDup (dkeys sl0)) by (rewrite Ks; now apply NoDup_filter_keys).
  assert (X : exists s0, dget sl0 k = Some s0 /\ sl_min s0 = mn /\ sl_max s0 = mx).
  { pose proof (C61_sliders _ _ E0) as F. clear - F Hf N0. revert N0 Hf. induction F as [|kv ks l l' (E1 & _ & _ & rest' & E4) F IH]; intros N0 Hf; [destruct Hf|].
    destruct ks as [k0 s0]. cbn [fst snd dget] in *. inversion N0 as [|? ? N1 N2]; subst. destruct Hf as [->|Hf].
    - cbn [fst snd] in *. rewrite String.eqb_refl. exists s0. injection E4 as <- <- _. auto.
    - destruct (IH N2 Hf) as (s1 & D1 & D2). destruct (String.eqb_spec k (fst kv)) as [->|]; [|eauto].
      exfalso. apply N1. change (In (fst kv) (dkeys l')). destruct (in_dec string_dec (fst kv) (dkeys l')) as [|Z]; [assumption|]. apply dget_None_notin in Z. congruence. }
  destruct X as (s0 & D0 & M1 & M2).
  assert (Dsl : dget sl k = Some s0) by (rewrite Esl, dget_dset_other by congruence; exact D0).
  destruct (move3d_range es sl k s0 Dsl) as (s1 & D1 & M3 & M4).
  destruct (C85_parameters w o c n kw us sl es d H Ho Nk St (proj1 Rd)) as (d' & Hd' & Gd'). exists s1, d'.
  split; [exact D1|]. split; [congruence|]. split; [congruence|]. split; [exact Hd'|]. rewrite Gd'.
  destruct (String.eqb_spec k "inc"); [contradiction|]. now rewrite D1.
Qed.
Print Assumptions C85_partial.

(** ** Concrete widgets *)
Definition hist30 (t : string) : list op :=
  [ ONewScat (VHG (ESym t) (Some 2) a_vol); ONewScat (SIso a_srf);
    ONew (Some 0) (Some 1) true false true None None (PNum (Fin 1));
    OSetMono 0 None; OSetGeometry 0 [("t_0", Some (PNum (Fin 1))); ("p_0", Some (PNum (Fin 0)))];
    OUpdate 0 [("tau", PNum (Fin 1)); ("omega", PNum (Fin 1)); ("NormBRDF", PNum (Fin 1))] ].
Definition w30 (t : string) : world := fst (run (init true true) (hist30 t)).
Definition kw30 (t : string) : dict (list entry) := [(t, [ENumb 0; ENumb 1]); ("x", [ENumb 0; ENumb 1]); ("tau", [ENumb 1; ENumb 2])].
Lemma w30_hist t : hist (w30 t) 0.
Proof.
  exists true, (hist30 t). split; [|split; [|split; [|reflexivity]]].
  - unfold hist30. cbn [well_formed]. unfold mentions_existing. cbn [target args_exist].
    repeat match goal with |- _ /\ _ => split end; try exact I.
    all: try (intros s [= <-]; unfold has_scat; vm_compute; lia).
    all: try (intros s E; discriminate E).
    all: try (intros s [= <-]; unfold has_obj; vm_compute; lia).
    + intros k v [E|[E|[]]]; injection E as <- <-; exact I.
    + intros k v [E|[E|[E|[]]]]; injection E as <- <-; exact I.
  - unfold hist30. cbn [adm]. repeat (split; [try exact I; try (intros [])|]). exact I.
  - unfold hist30. repeat (constructor; [split; [intros []|split; [first [exact I|discriminate|repeat split; discriminate]|exact I]]|]); constructor.
Qed.
Lemma w30_rec t : exists r, obj (w_heap (w30 t)) 0 = Ok r /\ scat_at (w_heap (w30 t)) (r_V r) = Ok (VHG (ESym t) (Some 2) a_vol) /\
  scat_at (w_heap (w30 t)) (r_SRF r) = Ok (SIso a_srf) /\ r_fnevals_input r = None /\ r_intQ r = true /\ r_sig0 r = false /\ r_dB r = true /\ params_nd (w_heap (w30 t)) r <> Err KeyError /\
  forall p, r_def r p = DStr (ESym match p with Tau => "tau" | Omega => "omega" | NormBRDF => "NormBRDF" | Bsf => "bsf" end).
Proof.
  eexists. split; [vm_compute; reflexivity|]. split; [vm_compute; reflexivity|]. split; [vm_compute; reflexivity|].
  split; [vm_compute; reflexivity|]. split; [vm_compute; reflexivity|]. split; [vm_compute; reflexivity|]. split; [vm_compute; reflexivity|]. split; [vm_compute; discriminate|].
  intros []; vm_compute; reflexivity.
Qed.
Lemma w30_own t : own_functions (w30 t) 0 /\ obs_flags (w30 t) 0 true false true.
Proof. destruct (w30_rec t) as (r & Hr & _ & _ & Hi & F1 & F2 & F3 & _). split; [exists r; auto|exists r; auto]. Qed.
Lemma w30_readable t : exists d, readable (w30 t) 0 d.
Proof.
  destruct (w30_rec t) as (r & Hr & Hv & Hs & _). eexists. split; [vm_compute; reflexivity|].
  split; [exists (VHG (ESym t) (Some 2) a_vol)|exists (SIso a_srf)]; exists r; (split; [exact Hr|assumption]).
Qed.
Definition sl30 (t : string) : dict slider :=
  [(t, mk_slider 0 1 (clip 0 1 ((1 - 0) / 2)) t); ("tau", mk_slider 1 2 (clip 1 2 ((2 - 1) / 2)) "tau"); ("inc", inc_slider)].
Lemma w30_start iq : snd (start3d 0 "ts" 2 (kw30 "t") (fst (step (w30 "t") (OSetFlags 0 iq false true)))) = Ok ([0; 1], sl30 "t").
Proof. vm_compute. reflexivity. Qed.
Lemma w30_start' : snd (start3d 0 "ts" 2 (kw30 "t") (w30 "t")) = Ok ([0; 1], sl30 "t").
Proof. vm_compute. reflexivity. Qed.
Lemma move3d_again sl k x y : move3d sl [(k, x); (k, y)] = move3d sl [(k, y)].
Proof.
  cbn [move3d next_sliders]. rewrite map_map. apply map_ext. intros [j s]. cbn [fst snd]. destruct (String.eqb k j) eqn:E; cbn [fst snd]; rewrite E; reflexivity.
Qed.
Notation plain30 := (fst (run (w30 "t") (by_calls 0 false false 2 (sl_val inc_slider) (slider_vals (without_inc (move3d (sl30 "t") []))) (length (h_arrs (w_heap (w30 "t"))))))).
Lemma plain30_calc : exists A, snd (step plain30 (OCalc 0 nil)) = RetArr A /\ shp A = [2; 2; 3].
Proof.
  assert (A : is_arr (snd (step plain30 (OCalc 0 nil))) = true /\ match snd (step plain30 (OCalc 0 nil)) with RetArr a => shp a | _ => [] end = [2; 2; 3]) by (split; vm_compute; reflexivity).
  destruct A as [A B]. destruct (is_arr_ex _ A) as [a Ha]. exists a. split; [exact Ha|]. now rewrite Ha in B.
Qed.
Example C62_session_nonvacuous : exists sl, hist (w30 "t") 0 /\ own_functions (w30 "t") 0 /\ snd (analyze_start 0 (kw30 "t") (w30 "t")) = Ok sl /\ dkeys sl = ["t"; "tau"].
Proof. eexists. split; [apply w30_hist|]. split; [apply w30_own|]. split; [vm_compute; reflexivity|reflexivity]. Qed.
Example C82_nonvacuous : hist (w30 "t") 0 /\ own_functions (w30 "t") 0 /\ snd (start3d 0 "ts" 2 (kw30 "t") (w30 "t")) = Ok ([0; 1], sl30 "t") /\
  move3d (sl30 "t") [("tau", 2%R); ("tau", (3/2)%R)] = move3d (sl30 "t") [("tau", (3/2)%R)] /\
  exists l, snd (update3d 0 "ts" [0; 1] (move3d (sl30 "t") []) (play3d 0 "ts" [0; 1] (sl30 "t") [] (fst (start3d 0 "ts" 2 (kw30 "t") (w30 "t"))))) = Ok l /\ length l = 2.
Proof.
  split; [apply w30_hist|]. split; [apply w30_own|]. split; [apply w30_start'|]. split; [apply move3d_again|].
  assert (Sel : selects_interaction "ts" false) by (split; [discriminate|]; intros [E|[E|[]]]; discriminate E).
  destruct (C83_points (w30 "t") 0 "ts" 2 (kw30 "t") [0; 1] (sl30 "t") [] inc_slider true false true false (w30_hist _) (proj1 (w30_own _)) (proj2 (w30_own _)) Sel w30_start' eq_refl) as [Q _].
  destruct plain30_calc as (A & EA & SA). specialize (Q A EA SA). destruct Q as (l & El & F & _). exists l. split; [exact El|]. inversion F as [|? ? ? ? _ F1]; inversion F1 as [|? ? ? ? _ F2]; inversion F2; reflexivity.
Qed.
Example C83_nonvacuous : hist (w30 "t") 0 /\ own_functions (w30 "t") 0 /\ obs_flags (w30 "t") 0 true false true /\ selects_interaction "ts" false /\
  snd (start3d 0 "ts" 2 (kw30 "t") (w30 "t")) = Ok ([0; 1], sl30 "t") /\ dget (move3d (sl30 "t") []) "inc" = Some inc_slider /\
  exists A, snd (step plain30 (OCalc 0 nil)) = RetArr A /\ shp A = [2; 2; 3].
Proof.
  split; [apply w30_hist|]. split; [apply w30_own|]. split; [apply w30_own|].
  split; [split; [discriminate|]; intros [E|[E|[]]]; discriminate E|]. split; [apply w30_start'|]. split; [reflexivity|apply plain30_calc].
Qed.
Example C84_nonvacuous : hist (w30 "t") 0 /\ own_functions (w30 "t") 0 /\ obs_flags (w30 "t") 0 true false true /\
  snd (start3d 0 "ts" 2 (kw30 "t") (w30 "t")) = Ok ([0; 1], sl30 "t") /\
  snd (start3d 0 "ts" 2 (kw30 "t") (fst (step (w30 "t") (OSetFlags 0 false false true)))) = Ok ([0; 1], sl30 "t").
Proof. split; [apply w30_hist|]. split; [apply w30_own|]. split; [apply w30_own|]. split; [apply w30_start'|apply w30_start]. Qed.
Lemma w30_needs t : ~ In t angle_names -> needed (w30 t) 0 t.
Proof.
  intros N. destruct (w30_rec t) as (r & Hr & Hv & Hs & _). apply (needed_rec _ _ _ _ _ t Hr Hv Hs). split; [exact N|]. right. left.
  cbn. tauto.
Qed.
(** "inc" is a parameter of the volume function, and was given the range from 0 to 1 *)
Lemma w30_inc : exists sl, snd (start3d 0 "ts" 2 (kw30 "inc") (w30 "inc")) = Ok ([0; 1], sl) /\ dget sl "inc" = Some inc_slider.
Proof. eexists. split; [vm_compute; reflexivity|reflexivity]. Qed.
Theorem C85_refuted : ~ C85_intended.
Proof.
  intros Q. destruct w30_inc as (sl & St & Di).
  destruct (Q (w30 "inc") 0 "ts" 2 (kw30 "inc") [0; 1] sl [] "inc" 0%R 1%R [] (w30_hist _) (proj1 (w30_own _)) (w30_readable _)) as (s & d & Ds & Mn & _); auto.
  - repeat constructor; cbn; intuition discriminate.
  - now left.
  - apply w30_needs. cbn. intuition discriminate.
  - cbn [move3d] in Ds. rewrite Di in Ds. injection Ds as <-. cbn in Mn. lra.
Qed.
Print Assumptions C85_refuted.
Example C85_nonvacuous : hist (w30 "t") 0 /\ own_functions (w30 "t") 0 /\ (exists d, readable (w30 "t") 0 d) /\ NoDup (dkeys (kw30 "t")) /\
  snd (start3d 0 "ts" 2 (kw30 "t") (w30 "t")) = Ok ([0; 1], sl30 "t") /\ needed (w30 "t") 0 "t".
Proof.
  split; [apply w30_hist|]. split; [apply w30_own|]. split; [apply w30_readable|]. split; [repeat constructor; cbn; intuition discriminate|].
  split; [apply w30_start'|]. apply w30_needs. cbn. intuition discriminate.
Qed.
Example C86_nonvacuous : reached (w30 "t") /\ (exists d, readable (w30 "t") 0 d /\ needed (w30 "t") 0 "t" /\ dget d "t" = None) /\
  snd (start3d 0 "ts" 2 [] (w30 "t")) = Err AssertionError /\ snd (start3d 0 "tx" 2 (kw30 "t") (w30 "t")) = Err ValueError.
Proof.
  split; [eapply hist_reached; apply w30_hist|].
  assert (Nt : needed (w30 "t") 0 "t") by (apply w30_needs; cbn; intuition discriminate).
  assert (Rd : exists d, readable (w30 "t") 0 d /\ dget d "t" = None).
  { destruct (w30_rec "t") as (r & Hr & Hv & Hs & _). eexists. split; [split; [vm_compute; reflexivity|]|reflexivity].
    split; [exists (VHG (ESym "t") (Some 2) a_vol)|exists (SIso a_srf)]; exists r; (split; [exact Hr|assumption]). }
  destruct Rd as (d & Rd & Nd). split; [exists d; auto|].
  destruct (w30_rec "t") as (r & Hr & _). split.
  - apply (C86_missing (w30 "t") 0 "ts" 2 [] d "t"); auto; [eapply hist_reached; apply w30_hist|]. intros a [<-|[<-|[]]]; cbn; tauto.
  - apply (C86_contributions (w30 "t") 0 "tx" 2 (kw30 "t") r "x"%char Hr); [cbn; tauto|]. cbn. intuition discriminate.
Qed.
Example C87_nonvacuous : hist (w30 "t") 0 /\ own_functions (w30 "t") 0 /\ obs_flags (w30 "t") 0 true false true /\ obs_mode (w30 "t") 0 true /\
  snd (start3d 0 "ts" 2 (kw30 "t") (w30 "t")) = Ok ([0; 1], sl30 "t") /\ exists s, dget (move3d (sl30 "t") [("inc", 30%R)]) "inc" = Some s.
Proof.
  split; [apply w30_hist|]. split; [apply w30_own|]. split; [apply w30_own|]. split; [eexists; split; vm_compute; reflexivity|]. split; [apply w30_start'|]. eexists. reflexivity.
Qed.
