(** C100: threads that work on different objects do not disturb each other. *)
From Verif Require Import Threads Properties14 Properties15.
From Coq Require Import Reals Lra Lia.
Open Scope string_scope.
Open Scope nat_scope.
Open Scope list_scope.

(** ** Programs all of whose steps are safe *)
(** [b]: jacobian() has been asked for a parameter name on [o] *)
Definition okm {A} (o : nat) (b : bool) (m : M A) : Prop :=
  loc o m /\ only o m /\ keepHB m /\ forall J, (b = true -> In o J) -> simM J m.
Fixpoint gen {A} (o : nat) (b : bool) (p : prog A) : Prop :=
  match p with Done _ => True | @Act _ _ m k => okm o b m /\ forall r, gen o b (k r) end.
Lemma gn_bind {A B} o b (p : prog A) (k : A -> prog B) : gen o b p -> (forall a, gen o b (k a)) -> gen o b (pbind p k).
Proof. intros Hp Hk. induction p as [[a|e]|C m f IH]; cbn in *; auto. destruct Hp as [H1 H2]. split; auto. Qed.
Lemma gn_catch {A} o b (p : prog A) (k : exn -> prog A) : gen o b p -> (forall a, gen o b (k a)) -> gen o b (pcatch p k).
Proof. intros Hp Hk. induction p as [[a|e]|C m f IH]; cbn in *; auto. destruct Hp as [H1 H2]. split; auto. Qed.
Lemma gn_out {A} o b (f : A -> out) (p : prog A) : gen o b p -> gen o b (pout f p).
Proof. intros Hp. induction p as [[a|e]|C m g IH]; cbn in *; auto. destruct Hp as [H1 H2]. split; auto. Qed.
Lemma gn_ret {A} o b (a : A) : gen o b (pret a). Proof. exact I. Qed.
Lemma gn_fail {A} o b e : gen o b (@pfail A e). Proof. exact I. Qed.
Lemma gn_atom {A} o b (m : M A) : okm o b m -> gen o b (atom m). Proof. intros H. split; [exact H|intros r; exact I]. Qed.
Ltac okgo := split; [solve [lcgo]|split; [solve [olgo]|split; [solve [apply kh_frame; frgo]|intros ? ?; solve [simgo]]]].
Create HintDb gn.
#[export] Hint Resolve gn_ret gn_fail : gn.
Ltac gngo :=
  repeat first
    [ match goal with |- forall _, _ => intro end
    | solve [auto with gn]
    | match goal with
      | |- gen _ _ (pbind _ _) => apply gn_bind
      | |- gen _ _ (pcatch _ _) => apply gn_catch
      | |- gen _ _ (atom _) => apply gn_atom; solve [okgo]
      | |- gen _ _ (let '(_, _) := ?p in _) => destruct p
      | |- gen _ _ (match ?x with _ => _ end) => destruct x
      | |- gen _ _ (if ?x then _ else _) => destruct x
      end ].
Lemma gn_eval o b p : gen o b (p_eval_param o p). Proof. unfold p_eval_param. gngo. Qed.
#[export] Hint Resolve gn_eval : gn.
Lemma gn_val o b p : gen o b (p_param_val o p). Proof. unfold p_param_val. gngo. Qed.
Lemma gn_scat o b x : gen o b (p_scat o x). Proof. unfold p_scat. gngo. Qed.
#[export] Hint Resolve gn_val gn_scat : gn.
Lemma gn_surface o b : gen o b (p_surface o). Proof. unfold p_surface. gngo. Qed.
Lemma gn_volume o b : gen o b (p_volume o). Proof. unfold p_volume. gngo. Qed.
(** storing an attribute that no memoised function depends on *)
Lemma gn_store o b (g : rt1 -> rt1) : loc o (do r <- get_obj o ;; put_obj o (g r)) -> (forall r, agree r (g r)) -> (forall r, strip (g r) = strip r) ->
  gen o b (atom (do r <- get_obj o ;; put_obj o (g r))).
Proof.
  intros Hl Ha Hs. apply gn_atom. split; [exact Hl|]. split; [apply ol_bind; [apply ol_gets|intros r; apply ol_put]|].
  split; [apply kh_frame; now apply fr_put_strip|]. intros J _. now apply sim_put_all.
Qed.
Lemma gn_fn o b : gen o b (p_fn o).
Proof.
  unfold p_fn. apply gn_bind; [gngo|intros r]. destruct (r_fn r); [gngo|]. destruct (r_fn_input r); [gngo|]. destruct (r_intQ r); [|gngo].
  apply gn_bind; [gngo|intros f]. apply gn_bind; [|gngo]. apply (gn_store o b (fun r => with_fn r (Some f))); [lcgo|intros; agr|reflexivity].
Qed.
#[export] Hint Resolve gn_fn : gn.
Lemma gn_fnevals o b : gen o b (p_fnevals o).
Proof.
  unfold p_fnevals. apply gn_bind; [gngo|intros r]. destruct (r_fnev r); [gngo|]. destruct (r_fnevals_input r); [gngo|]. destruct (r_intQ r); [|gngo].
  apply gn_bind; [gngo|intros [es|]; [|gngo]]. apply gn_bind; [gngo|intros c]. apply gn_bind; [|gngo].
  apply (gn_store o b (fun r => with_fnev r (Some c))); [lcgo|intros; agr|reflexivity].
Qed.
#[export] Hint Resolve gn_fnevals : gn.
Lemma gn_Fint o b f : gen o b (p_Fint o f). Proof. unfold p_Fint. destruct f; gngo. Qed.
#[export] Hint Resolve gn_surface gn_volume gn_Fint : gn.
Lemma gn_interaction o b : gen o b (p_interaction o). Proof. unfold p_interaction. gngo. Qed.
Lemma gn_convert o b v : gen o b (p_convert o v). Proof. unfold p_convert. gngo. Qed.
Lemma gn_symbs o b : gen o b (p_symbs o). Proof. unfold p_symbs. gngo. Qed.
#[export] Hint Resolve gn_interaction gn_convert gn_symbs : gn.
Lemma gn_body o b : gen o b (p_calc_body o). Proof. unfold p_calc_body. gngo. Qed.
#[export] Hint Resolve gn_body : gn.

(** ** The steps of one thread *)
(** [p], started in [u] (without caches), keeps every concurrent execution sound and ends with [Q] *)
Fixpoint safe {A} (o : nat) (Q : bool -> world -> res A -> Prop) (b : bool) (u : world) (p : prog A) : Prop :=
  match p with
  | Done r => Q b u r
  | @Act _ _ m k => exists b', (b = true -> b' = true) /\ loc o m /\ only o m /\ keepHB m /\
      (forall h J wc uc, Sim J wc uc -> HB (w_heap wc) -> (In o J <-> b' = true) -> L h o u uc -> simAt J m wc uc) /\
      safe o Q b' (fst (m u)) (k (snd (m u)))
  end.
Lemma safe_gen {A} o b (p : prog A) (Q : bool -> world -> res A -> Prop) : forall u, gen o b p -> Q b (fst (solo p u)) (snd (solo p u)) -> safe o Q b u p.
Proof.
  induction p as [r|C m k IH]; intros u Hg HQ; [exact HQ|]. destruct Hg as [(H1 & H2 & H3 & H4) Hk]. cbn [safe]. exists b.
  split; [auto|]. split; [exact H1|]. split; [exact H2|]. split; [exact H3|]. split; [|now apply IH].
  intros h J wc uc HS _ HJ _. apply (H4 J); [apply HJ|exact HS].
Qed.
Lemma safe_bind {A B} o (p : prog A) (k : A -> prog B) Q : forall b u,
  safe o (fun b u r => match r with Ok a => safe o Q b u (k a) | Err e => Q b u (Err e) end) b u p -> safe o Q b u (pbind p k).
Proof.
  induction p as [[a|e]|C m f IH]; intros b u H; cbn in *; [exact H|exact H|].
  destruct H as (b' & H1 & H2 & H3 & H4 & H5 & H6). exists b'. auto 10.
Qed.
Lemma safe_out {A} o (f : A -> out) (p : prog A) Q : forall b u,
  safe o (fun b u r => Q b u (Ok (match r with Ok a => f a | Err e => Raised e end))) b u p -> safe o Q b u (pout f p).
Proof.
  induction p as [[a|e]|C m g IH]; intros b u H; cbn in *; [exact H|exact H|].
  destruct H as (b' & H1 & H2 & H3 & H4 & H5 & H6). exists b'. auto 10.
Qed.
Lemma L_obj h o u u' : L h o u u' -> obj (w_heap u') o = obj (w_heap u) o.
Proof. intros (_ & _ & _ & _ & E). unfold objs_at in E. unfold obj. now rewrite E. Qed.
Lemma L_scat h o u u' i : L h o u u' -> scat_at (w_heap u') i = scat_at (w_heap u) i.
Proof.
  intros (_ & _ & E1 & E2 & _). unfold scat_at. replace (h_scats (w_heap u')) with (h_scats (rest (w_heap u'))) by reflexivity.
  rewrite E2, <- E1. reflexivity.
Qed.
(** a call that first stores parameters *)
Lemma safe_update {A} o kw b u (k : res unit -> prog A) (Q : bool -> world -> res A -> Prop) :
  (b = true -> adds_no_name (w_heap u) o kw) -> (forall r, gen o b (k r)) ->
  Q b (fst (solo (Act (update_params o kw) k) u)) (snd (solo (Act (update_params o kw) k) u)) ->
  safe o Q b u (Act (update_params o kw) k).
Proof.
  intros Ha Hk HQ. cbn [safe]. exists b. split; [auto|]. split; [apply lc_update|]. split; [apply ol_update|]. split; [apply kh_update|]. split.
  - intros h J wc uc HS HBw HJ HL. apply sim_update; [exact HS|exact HBw|]. intros I r Hr. apply HJ in I.
    assert (E : w_heap wc = w_heap uc) by apply HS. rewrite E, (L_obj _ _ _ _ HL) in Hr. exact (Ha I r Hr).
  - apply safe_gen; [apply Hk|exact HQ].
Qed.
Definition b_after (b : bool) (p : op) : bool := match p with OJacobian _ keys _ => b || negb (forallb std_key keys) | _ => b end.
Lemma gn_entries o b n ks : (forallb std_key ks = false -> b = true) -> gen o b (p_entries o n ks).
Proof.
  induction ks as [|k ks IH]; intros H; cbn [p_entries]; [exact I|]. cbn [forallb] in H. apply gn_bind; [apply gn_atom|].
  - split; [apply lc_jac_entry|]. split; [apply ol_jac_entry|]. split; [apply kh_frame; frgo|]. intros J HJ. apply sim_jac_entry. intros E. apply HJ, H. now rewrite E.
  - intros j. apply gn_bind; [|intros; exact I]. apply IH. intros E. apply H. rewrite E. apply andb_false_r.
Qed.
(** all steps after the first *)
Definition tailgen {A} (o : nat) (b : bool) (p : prog A) : Prop := match p with Done _ => True | @Act _ _ m k => forall r, gen o b (k r) end.
Lemma tg_bind {A B} o b (m : M A) (k : A -> prog B) : (forall a, gen o b (k a)) -> tailgen o b (pbind (atom m) k).
Proof. intros H [a|e]; cbn; [apply H|exact I]. Qed.
Lemma tg_catch {A} o b (p : prog A) (k : exn -> prog A) : tailgen o b p -> (forall a, gen o b (k a)) -> (exists B (m : M B) f, p = Act m f) -> tailgen o b (pcatch p k).
Proof. intros H Hk (B & m & f & ->) r. cbn in *. apply gn_catch; auto. Qed.
Lemma tg_out {A} o b (f : A -> out) (p : prog A) : tailgen o b p -> tailgen o b (pout f p).
Proof. destruct p as [[a|e]|C m g]; cbn; auto. intros H r. now apply gn_out. Qed.
Lemma sol_op p u : (fst (solo (p_op p) u), snd (solo (p_op p) u)) = (fst (step u p), Ok (snd (step u p))).
Proof. rewrite sm_op. reflexivity. Qed.
Lemma op_safe o p b u J (Q : bool -> world -> res out -> Prop) :
  uses o p = true -> (In o J <-> b = true) -> adm1 J (w_heap u) p ->
  Q (b_after b p) (fst (step u p)) (Ok (snd (step u p))) -> safe o Q b u (p_op p).
Proof.
  intros U HJ Ha HQ.
  assert (Hup : forall kw k, p_op p = Act (update_params o kw) k -> (In o J -> adds_no_name (w_heap u) o kw) -> b_after b p = b -> tailgen o b (p_op p) -> safe o Q b u (p_op p)).
  { intros kw k E Hn Hb Hg. pose proof (sol_op p u) as S. rewrite E in S, Hg |- *. pose proof (f_equal fst S) as S1. pose proof (f_equal snd S) as S2. cbn [fst snd] in S1, S2. clear S. apply safe_update; [now rewrite <- HJ|exact Hg|].
    rewrite S1, S2, <- Hb. exact HQ. }
  assert (Hat : p_op p = atom (step_m p) -> b_after b p = b -> loc o (step_m p) -> only o (step_m p) ->
     (forall h wc uc Jc, L h o u uc -> w_heap wc = w_heap uc -> (In o Jc <-> b = true) -> adm1 Jc (w_heap wc) p /\ J_after Jc p = Jc) -> safe o Q b u (p_op p)).
  { intros E Hb Hl Ho Hadm. rewrite E. cbn [safe atom]. exists b. split; [auto|]. split; [exact Hl|]. split; [exact Ho|]. split; [intros w; apply step_HB|]. split.
    - intros h Jc wc uc HS HBw HJc HL. destruct (Hadm h wc uc Jc HL) as [A1 A2]; [apply HS|exact HJc|].
      destruct (step_sim Jc wc uc p HS HBw A1) as [S1 S2]. rewrite A2 in S2. split; [|exact S2]. unfold step_m. cbn [snd]. now rewrite S1.
    - cbn [step_m fst snd]. rewrite <- Hb. exact HQ. }
  assert (Hloc : forall A (f : A -> out) (m : M A), (forall w, step w p = as_out f m w) -> loc o m -> loc o (step_m p)).
  { intros A f m E Hl h v v' HL. destruct (Hl h v v' HL) as [H1 H2]. unfold step_m. cbn [fst snd]. rewrite !E, !fst_as_out, !snd_as_out, H2. split; [exact H1|reflexivity]. }
  assert (Honl : forall A (f : A -> out) (m : M A), (forall w, step w p = as_out f m w) -> only o m -> only o (step_m p)).
  { intros A f m E Hl w i Hi. unfold step_m. cbn [fst]. rewrite !E, !fst_as_out. now apply Hl. }
  destruct p; cbn in U; try discriminate U; apply Nat.eqb_eq in U; subst.
  all: try (apply Hat; [reflexivity|reflexivity|eapply Hloc; [intros w; reflexivity|lcgo]|eapply Honl; [intros w; reflexivity|olgo]|]; intros h wc uc Jc HL E HJc; split; [|reflexivity]; try exact I).
  - intros I r Hr. apply HJc in I. rewrite E, (L_obj _ _ _ _ HL) in Hr. apply HJ in I. exact (Ha I r Hr).
  - apply Hat; [reflexivity|reflexivity|eapply Hloc; [intros w; reflexivity|lcgo]|eapply Honl; [intros w; reflexivity|unfold set_def; olgo]|].
    intros h wc uc Jc HL E HJc. split; [exact I|reflexivity].
  - destruct Ha as [A B]. split; [now rewrite HJc, <- HJ|]. intros r Hr. rewrite E, (L_obj _ _ _ _ HL) in Hr. unfold nc_at. rewrite E, !(L_scat _ _ _ _ _ HL). exact (B r Hr).
  - destruct Ha as [A B]. split; [now rewrite HJc, <- HJ|]. intros r Hr. rewrite E, (L_obj _ _ _ _ HL) in Hr. unfold nc_at. rewrite E, !(L_scat _ _ _ _ _ HL). exact (B r Hr).
  - eapply (Hup kw); [reflexivity|exact Ha|reflexivity|]. apply tg_out, tg_catch; [apply tg_bind; intros; apply gn_body|intros e; destruct e; gngo|].
    eexists _, _, _. reflexivity.
  - eapply (Hup kw); [reflexivity|exact Ha|reflexivity|]. apply tg_out, tg_bind. intros. gngo.
  - eapply (Hup kw); [reflexivity|exact Ha|reflexivity|]. apply tg_out, tg_bind. intros. gngo.
  - eapply (Hup kw); [reflexivity|exact Ha|reflexivity|]. apply tg_out, tg_bind. intros. gngo.
  - assert (Hg : forall b', (forallb std_key keys = false -> b' = true) -> tailgen o b' (p_op (OJacobian o keys format))).
    { intros b' Hb. apply tg_out, tg_bind. intros n. apply gn_bind; [now apply gn_entries|]. intros js. gngo. }
    pose proof (sol_op (OJacobian o keys format) u) as S. pose proof (f_equal fst S) as S1. pose proof (f_equal snd S) as S2. cbn [fst snd] in S1, S2. clear S.
    cbn [b_after] in HQ. set (b' := b || negb (forallb std_key keys)) in *.
    assert (Hb : forallb std_key keys = false -> b' = true) by (intros E; unfold b'; rewrite E; apply orb_true_r).
    specialize (Hg b' Hb). assert (E : exists k, p_op (OJacobian o keys format) = Act (jac_norm o) k) by (eexists; reflexivity). destruct E as [k E].
    rewrite E in *. cbn [safe]. exists b'. split; [intros Eb; unfold b'; now rewrite Eb|].
    split; [apply lc_jac_norm|]. split; [apply ol_jac_norm|]. split; [apply kh_frame; frgo|]. split; [intros h Jc wc uc HS _ _ _; now apply sim_jac_norm|].
    apply safe_gen; [apply Hg|]. cbn [solo] in S1, S2. rewrite S1, S2. exact HQ.
Qed.
Lemma bJ o J b p : uses o p = true -> (In o J <-> b = true) -> (In o (J_after J p) <-> b_after b p = true).
Proof.
  intros U H. destruct p; cbn [J_after b_after]; auto. cbn in U. apply Nat.eqb_eq in U. subst. destruct (forallb std_key keys); cbn.
  - now rewrite orb_false_r.
  - rewrite orb_true_r. tauto.
Qed.
Lemma ops_safe o ps : forall b u J w (Q : bool -> world -> res (list out) -> Prop),
  Forall (fun p => uses o p = true) ps -> Sim J w u -> HB (w_heap w) -> (In o J <-> b = true) -> adm J w ps ->
  (forall b', Q b' (fst (run u ps)) (Ok (snd (run u ps)))) -> safe o Q b u (p_ops ps).
Proof.
  induction ps as [|p ps IH]; intros b u J w Q HU HS HBw HJ Ha HQ; [exact (HQ b)|].
  inversion HU as [|? ? U HU']. subst. destruct Ha as [Ha1 Ha2]. cbn [p_ops]. apply safe_bind.
  destruct (step_sim J w u p HS HBw Ha1) as [E1 HS1]. assert (Eh : w_heap w = w_heap u) by apply HS.
  apply (op_safe o p b u J); [exact U|exact HJ|now rewrite <- Eh|]. apply safe_bind.
  apply (IH _ _ (J_after J p) (fst (step w p))); [exact HU'|exact HS1|now apply step_HB|now apply bJ|exact Ha2|].
  intros b'. cbn [pret safe]. specialize (HQ b'). cbn [run] in HQ. destruct (step u p) as [u1 x]. cbn [fst snd] in *. destruct (run u1 ps) as [u2 xs]. exact HQ.
Qed.

(** ** All threads together *)
Fixpoint len {A} (p : prog A) (u : world) : nat := match p with Done _ => 0 | @Act _ _ m k => S (len (k (snd (m u))) (fst (m u))) end.
Definition Qt (u0 : world) (calls : list op) (b : bool) (u : world) (r : res (list out)) : Prop :=
  r = Ok (snd (run u0 calls)) /\ w_heap u = w_heap (fst (run u0 calls)).
Definition Inv (u0 : world) (th : list (nat * list op)) (wc : world) (ts : list (prog (list out))) (st : nat -> bool * world) : Prop :=
  exists h Jc uc, Sim Jc wc uc /\ HB (w_heap wc) /\ length ts = length th /\
  forall i o calls p, nth_error th i = Some (o, calls) -> nth_error ts i = Some p ->
    safe o (Qt u0 calls) (fst (st i)) (snd (st i)) p /\ L h o (snd (st i)) uc /\ (In o Jc <-> fst (st i) = true).
Lemma Sim_maybe (c : bool) o J w u : Sim J w u -> Sim (if c then o :: J else J) w u.
Proof. destruct c; [apply Sim_more|auto]. Qed.
Lemma conc u0 th : NoDup (map fst th) -> forall sched wc ts st, Inv u0 th wc ts st ->
  exists st', Inv u0 th (fst (interleaved sched wc ts)) (snd (interleaved sched wc ts)) st' /\
  forall i p, nth_error ts i = Some p -> len p (snd (st i)) <= count_occ Nat.eq_dec sched i ->
    exists r, nth_error (snd (interleaved sched wc ts)) i = Some (Done r).
Proof.
  intros ND. induction sched as [|i sched IH]; intros wc ts st HI.
  { exists st. split; [exact HI|]. intros i p E Hl. cbn in *. destruct p; cbn in Hl; [eauto|lia]. }
  cbn [interleaved]. destruct (nth_error ts i) as [[r|B m k]|] eqn:Ei.
  - destruct (IH wc ts st HI) as (st' & H1 & H2). exists st'. split; [exact H1|]. intros j p Ej Hl. destruct (Nat.eq_dec i j) as [<-|Hn].
    + apply (H2 _ _ Ej). rewrite Ei in Ej. injection Ej as <-. cbn. lia.
    + apply (H2 _ _ Ej). rewrite count_occ_cons_neq in Hl by assumption. exact Hl.
  - destruct HI as (h & Jc & uc & HS & HBw & Hlen & Hall).
    assert (Hi : exists o calls, nth_error th i = Some (o, calls)).
    { destruct (nth_error th i) as [[o calls]|] eqn:E; [eauto|]. apply nth_error_None in E. assert (i < length ts) by (apply nth_error_Some; congruence). lia. }
    destruct Hi as (o & calls & Eth). destruct (Hall i o calls _ Eth Ei) as (Hs & HL & HJ).
    cbn [safe] in Hs. destruct Hs as (b' & Hbb & Hloc & Honly & Hkeep & Hsim & Hs').
    set (b := fst (st i)) in *. set (u := snd (st i)) in *.
    set (c := b' && negb b). assert (HJ' : In o (if c then o :: Jc else Jc) <-> b' = true).
    { unfold c. destruct b, b'; cbn; try tauto; try (rewrite HJ; intuition discriminate); specialize (Hbb eq_refl); discriminate. }
    pose proof (Sim_maybe c o Jc wc uc HS) as HSc. set (Jc' := if c then o :: Jc else Jc) in *.
    destruct (Hsim h Jc' wc uc HSc HBw HJ' HL) as [Er HS']. destruct (Hloc h u uc HL) as [HL' Er']. pose proof (Hkeep wc HBw) as HB'.
    assert (Er2 : snd (m wc) = snd (m u)) by congruence.
    set (st1 := fun j => if j =? i then (b', fst (m u)) else st j).
    assert (HI1 : Inv u0 th (fst (m wc)) (list_set ts i (k (snd (m wc)))) st1).
    { exists h, Jc', (fst (m uc)). split; [exact HS'|]. split; [exact HB'|]. split; [now rewrite list_set_length|].
      intros j o2 calls2 p Etj Ej. rewrite nth_error_list_set in Ej. unfold st1. rewrite (Nat.eqb_sym j i).
      destruct (Nat.eqb_spec i j) as [<-|Hn]; cbn [andb] in Ej.
      - rewrite Etj in Eth. injection Eth as <- <-. assert (Hlt : (i <? length ts) = true) by (apply Nat.ltb_lt, nth_error_Some; congruence).
        rewrite Hlt in Ej. injection Ej as <-. cbn [fst snd]. rewrite Er2. split; [exact Hs'|]. split; [exact HL'|exact HJ'].
      - destruct (Hall j o2 calls2 p Etj Ej) as (A1 & A2 & A3). split; [exact A1|].
        assert (Ho : o2 <> o).
        { intros ->. apply Hn. apply (proj1 (NoDup_nth_error (map fst th)) ND); [rewrite map_length; apply nth_error_Some; congruence|].
          rewrite !nth_error_map, Eth, Etj. reflexivity. }
        split.
        + destruct A2 as (B1 & B2 & B3 & B4 & B5). destruct HL' as (C1 & C2 & C3 & C4 & C5). repeat split; auto. rewrite (Honly uc o2 Ho). exact B5.
        + rewrite <- A3. unfold Jc'. destruct c; [|reflexivity]. cbn. intuition congruence. }
    destruct (IH (fst (m wc)) (list_set ts i (k (snd (m wc)))) st1 HI1) as (st' & H1 & H2).
    destruct (m wc) as [wc1 r1]. cbn [fst snd] in *. exists st'. split; [exact H1|]. intros j p Ej Hl.
    destruct (Nat.eq_dec i j) as [<-|Hn].
    + rewrite Ei in Ej. injection Ej as <-. rewrite count_occ_cons_eq in Hl by reflexivity. cbn [len] in Hl.
      apply (H2 i (k r1)); [rewrite nth_error_list_set, Nat.eqb_refl; assert (Hlt : (i <? length ts) = true) by (apply Nat.ltb_lt, nth_error_Some; congruence); now rewrite Hlt|].
      unfold st1. rewrite Nat.eqb_refl. cbn [snd]. rewrite Er2. fold u in Hl. lia.
    + apply (H2 j p).
      * rewrite nth_error_list_set. destruct (Nat.eqb_spec i j); [contradiction|exact Ej].
      * unfold st1. destruct (Nat.eqb_spec j i); [congruence|]. rewrite count_occ_cons_neq in Hl by assumption. exact Hl.
  - destruct (IH wc ts st HI) as (st' & H1 & H2). exists st'. split; [exact H1|]. intros j p Ej Hl. destruct (Nat.eq_dec i j) as [<-|Hn]; [congruence|].
    apply (H2 _ _ Ej). rewrite count_occ_cons_neq in Hl by assumption. exact Hl.
Qed.

Lemma run_bare c : forall J w u, adm J w c -> Sim J w u -> HB (w_heap w) -> snd (run u c) = snd (run w c) /\ w_heap (fst (run u c)) = w_heap (fst (run w c)).
Proof.
  induction c as [|p c IH]; intros J w u Hc HS HBw.
  - split; [reflexivity|]. symmetry. apply HS.
  - destruct Hc as [A1 A2]. destruct (step_sim J w u p HS HBw A1) as [E1 E2]. pose proof (step_HB w p HBw) as HB'.
    destruct (IH _ _ _ A2 E2 HB') as [I1 I2]. cbn [run]. destruct (step w p) as [w1 x], (step u p) as [u1 y]. cbn [fst snd] in *. subst y.
    destruct (run w1 c), (run u1 c). cbn [fst snd] in *. subst. split; [reflexivity|exact I2].
Qed.

(** ** C100 *)
(** [threads]: the object each thread works on and the calls it makes.  Whatever the order in which the
    steps of the threads are executed: a thread that has finished has received what its calls return when
    no other thread runs, and its object is as if no other thread had run; and it has finished once it had
    enough turns. *)
Theorem C100_threads seng ps threads :
  let w := fst (run (init seng true) ps) in
  NoDup (map fst threads) ->
  (forall o calls, In (o, calls) threads -> Forall (fun p => uses o p = true) calls /\ adm [] (init seng true) (ps ++ calls)) ->
  forall i o calls, nth_error threads i = Some (o, calls) ->
  (forall sched r, let end_ := interleaved sched w (map (fun t => p_ops (snd t)) threads) in
     nth_error (snd end_) i = Some (Done r) ->
     r = Ok (snd (run w calls)) /\ obj (w_heap (fst end_)) o = obj (w_heap (fst (run w calls))) o) /\
  (exists n, forall sched, n <= count_occ Nat.eq_dec sched i ->
     exists r, nth_error (snd (interleaved sched w (map (fun t => p_ops (snd t)) threads))) i = Some (Done r)).
Proof.
  intros w ND Hth i o calls Ei.
  assert (H0 : forall o calls, In (o, calls) threads -> Sim (fold_left J_after ps []) w (bare (w_heap w)) /\ HB (w_heap w) /\ adm (fold_left J_after ps []) w calls).
  { intros o1 c1 I. exact (adm_split seng ps c1 (proj2 (Hth o1 c1 I))). }
  set (J := fold_left J_after ps []) in *. destruct (H0 o calls (nth_error_In _ _ Ei)) as (HS & HBw & _).
  set (u0 := bare (w_heap w)) in *. set (st0 := fun j : nat => (match nth_error threads j with Some (x, _) => if in_dec Nat.eq_dec x J then true else false | None => false end, u0)).
  assert (Hrun : forall c, adm J w c -> snd (run u0 c) = snd (run w c) /\ w_heap (fst (run u0 c)) = w_heap (fst (run w c))).
  { intros c Hc. exact (run_bare c J w u0 Hc HS HBw). }
  assert (HI : Inv u0 threads w (map (fun t => p_ops (snd t)) threads) st0).
  { exists (rest (w_heap w)), J, u0. split; [exact HS|]. split; [exact HBw|]. split; [apply map_length|].
    intros j o1 c1 p Ej Ep. rewrite nth_error_map, Ej in Ep. injection Ep as <-. cbn [snd st0]. destruct (Hth o1 c1 (nth_error_In _ _ Ej)) as [U A].
    destruct (H0 o1 c1 (nth_error_In _ _ Ej)) as (_ & _ & A1).
    assert (HJb : In o1 J <-> fst (st0 j) = true).
    { unfold st0. cbn [fst]. rewrite Ej. destruct (in_dec Nat.eq_dec o1 J); intuition discriminate. }
    split; [|split; [repeat split; reflexivity|exact HJb]].
    apply (ops_safe o1 c1 _ _ J w); [exact U|exact HS|exact HBw|exact HJb|exact A1|]. intros b'. split; reflexivity. }
  split.
  - intros sched r end_ Er. destruct (conc u0 threads ND sched _ _ _ HI) as (st' & (h & Jc & uc & HS' & _ & _ & Hall) & _).
    destruct (Hall i o calls _ Ei Er) as ((Q1 & Q2) & HL & _). destruct (H0 o calls (nth_error_In _ _ Ei)) as (_ & _ & A1). destruct (Hrun calls A1) as [R1 R2].
    split; [now rewrite Q1, R1|]. assert (E : w_heap (fst end_) = w_heap uc) by apply HS'. rewrite E, (L_obj _ _ _ _ HL), Q2, R2. reflexivity.
  - exists (len (p_ops calls) u0). intros sched Hl. destruct (conc u0 threads ND sched _ _ _ HI) as (st' & _ & H2).
    apply (H2 i (p_ops calls)); [now rewrite nth_error_map, Ei|exact Hl].
Qed.
Print Assumptions C100_threads.

(** two objects with the same V and SRF, each configured, evaluated and differentiated by its own thread *)
Definition two_objects : list op :=
  histS [] [1; 3] ++ [ ONew (Some 0) (Some 1) false true true None None (PNum (Fin 2)); OSetGeometry 1 [("t_0", Some (PNum (Fin 1))); ("p_0", Some (PNum (Fin 0)))] ].
Definition workers : list (nat * list op) :=
  [ (0, [ OSetGeometry 0 [("t_0", Some (PNum (Fin (1/4))))]; OCalc 0 [("tau", PNum (Fin (1/2)))]; OJacobian 0 ["tau"; "t"] "list" ]);
    (1, [ OCalc 1 []; OCalc 1 [("tau", PNum (Fin 2)); ("omega", PNum (Fin (1/4))); ("NormBRDF", PNum (Fin (1/5))); ("t", PNum (Fin (1/3)))]; OSetMono 1 None; OSurface 1 [] ]) ].
Definition turns2 (k : nat) : list nat := concat (repeat [0; 1; 1] k).
Definition outs_of (p : prog (list out)) : list nat := match p with Done (Ok xs) => kinds xs | _ => [] end.
Example C100_nonvacuous :
  let w := fst (run (init true true) two_objects) in
  NoDup (map fst workers) /\
  (forall o calls, In (o, calls) workers -> Forall (fun p => uses o p = true) calls /\ adm [] (init true true) (two_objects ++ calls)) /\
  map outs_of (snd (interleaved (turns2 150) w (map (fun t => p_ops (snd t)) workers))) = [[0; 1; 2]; [3; 1; 0; 1]].
Proof.
  cbv zeta. split; [repeat constructor; cbn; intuition discriminate|]. split; [|vm_compute; reflexivity].
  intros o calls [E|[E|[]]]; injection E as <- <-; (split; [repeat constructor|]); unfold two_objects; rewrite <- app_assoc; apply histS_adm; cbn [app].
  - admx.
  - admx.
Qed.
