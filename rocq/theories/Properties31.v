(** Logging: the handler of the package, which records it writes, rejected calls and formats. *)
From Coq Require Import ZArith Ascii String List Bool Lia.
From Verif Require Import Base Logging.
Import ListNotations.
Open Scope string_scope. Open Scope list_scope.

(** ** Specification *)
(** the documented names of levels and their severities in Python's logging, in any capitalisation *)
Definition documented_levels : list (string * Z) :=
  [("notset", 0); ("debug", 10); ("info", 20); ("warning", 30); ("error", 40); ("critical", 50)]%Z.
Definition lower_char (c : ascii) : ascii :=
  if Nat.leb 65 (nat_of_ascii c) && Nat.leb (nat_of_ascii c) 90 then ascii_of_nat (nat_of_ascii c + 32) else c.
Definition lower (s : string) : string := string_of_list_ascii (map lower_char (list_ascii_of_string s)).
Definition denotes (l : level_arg) (z : Z) : Prop :=
  l = LInt z \/ exists s name, l = LStr s /\ lower s = name /\ In (name, z) documented_levels.
(** the handlers of the package / of the user among those attached to the logger *)
Definition made_by_package (s : logst) (i : nat) : bool :=
  match nth_error (lg_handlers s) i with Some h => h_ours h | None => false end.
Definition package_handlers (s : logst) : list nat := filter (made_by_package s) (lg_attached s).
Definition user_handlers (s : logst) : list nat := filter (fun i => negb (made_by_package s i)) (lg_attached s).
Definition no_removal (ps : list log_op) : Prop := forall i, ~ In (LRemove i) ps.
(** a record of severity [n] reaches the output of the package *)
Definition package_writes (s : logst) (n : Z) : Prop := exists i, In i (package_handlers s) /\ writes s i n.
(** the names in a format string, in order: the text between "%(" and the next ")" *)
Fixpoint name_upto (s : list ascii) : list ascii :=
  match s with c :: s' => if Ascii.eqb c ")" then [] else c :: name_upto s' | [] => [] end.
Fixpoint names_in (s : list ascii) : list string :=
  match s with
  | [] => []
  | c :: s' => match s' with
               | d :: r => if Ascii.eqb c "%" && Ascii.eqb d "(" then string_of_list_ascii (name_upto r) :: names_in s' else names_in s'
               | [] => []
               end
  end.
Definition shows (f : option formatter) (names : list string) : Prop :=
  exists g d, f = Some (g, d) /\ names_in (list_ascii_of_string g) = names.
(** the documented short-names; a time is the clock time with its milliseconds, a module the name of its logger
    (which is "rt1_model" in every module of the package) *)
Definition documented_formats : list (string * list string) :=
  [("plain", ["message"]);
   ("basic", ["asctime"; "msecs"; "message"]);
   ("timed", ["asctime"; "msecs"; "levelname"; "message"]);
   ("debug", ["asctime"; "msecs"; "levelname"; "name"; "message"])].
Definition package_formats (s : logst) : list (option formatter) :=
  flat_map (fun i => match nth_error (lg_handlers s) i with Some h => [h_fmt h] | None => [] end) (package_handlers s).

(** ** Letters *)
Lemma upper_lower_char : forall c, upper_char (lower_char c) = upper_char c.
Proof. intros [[][][][][][][][]]; vm_compute; reflexivity. Qed.
Lemma upper_lower : forall s, upper (lower s) = upper s.
Proof.
  intros s. unfold upper, lower. rewrite list_ascii_of_string_of_list_ascii, map_map. f_equal. apply map_ext, upper_lower_char.
Qed.
Lemma denotes_checked : forall l z, denotes l z -> check_level (match l with LStr x => LStr (upper x) | l => l end) = Ok z.
Proof.
  intros l z [->|(s & nm & -> & Hl & Hin)]; [reflexivity|].
  cbv beta iota. rewrite <- upper_lower, Hl. clear Hl s.
  cbn [In documented_levels] in Hin.
  repeat (destruct Hin as [Hin|Hin]; [injection Hin as <- <-; vm_compute; reflexivity|]). destruct Hin.
Qed.

(** ** Invariant of all histories *)
Definition log_inv (s : logst) : Prop :=
  NoDup (lg_attached s) /\ (forall i, In i (lg_attached s) -> i < length (lg_handlers s)) /\
  (forall i h, nth_error (lg_handlers s) i = Some h -> (h_ours h = true <-> lg_cached s = Some i)) /\
  (forall i, lg_cached s = Some i -> i < length (lg_handlers s)).
Lemma list_set_length : forall A (l : list A) i x, length (list_set l i x) = length l.
Proof. induction l; intros [|i] x; simpl; auto. Qed.
Lemma nth_list_set : forall A (l : list A) i x j,
  nth_error (list_set l i x) j = if Nat.eqb i j then match nth_error l j with Some _ => Some x | None => None end else nth_error l j.
Proof.
  induction l as [|y l IH]; intros [|i] x [|j]; simpl; try reflexivity.
  - destruct (Nat.eqb i j); reflexivity.
  - apply IH.
Qed.
Lemma with_handler_nth : forall s i f j,
  nth_error (lg_handlers (with_handler s i f)) j =
  if Nat.eqb i j then option_map f (nth_error (lg_handlers s) j) else nth_error (lg_handlers s) j.
Proof.
  intros s i f j. unfold with_handler; cbn [lg_handlers].
  destruct (nth_error (lg_handlers s) i) as [h|] eqn:E.
  - rewrite nth_list_set. destruct (Nat.eqb_spec i j) as [->|]; [|reflexivity]. rewrite E. reflexivity.
  - destruct (Nat.eqb_spec i j) as [<-|]; [|reflexivity]. rewrite E. reflexivity.
Qed.
Lemma with_handler_length : forall s i f, length (lg_handlers (with_handler s i f)) = length (lg_handlers s).
Proof. intros. unfold with_handler; cbn [lg_handlers]. destruct nth_error; [apply list_set_length|reflexivity]. Qed.
Lemma with_handler_inv : forall s i f, (forall h, h_ours (f h) = h_ours h) -> log_inv s -> log_inv (with_handler s i f).
Proof.
  intros s i f Hf (N & B & O & C).
  split; [exact N|]. split; [intros k Hk; rewrite with_handler_length; apply B; exact Hk|].
  split; [|intros k Hk; rewrite with_handler_length; apply C; exact Hk].
  intros k h Hk. rewrite with_handler_nth in Hk. cbn [with_handler lg_cached].
  destruct (Nat.eqb_spec i k) as [->|]; [|exact (O _ _ Hk)].
  destruct (nth_error (lg_handlers s) k) as [h0|] eqn:E; [|discriminate].
  injection Hk as <-. rewrite Hf. exact (O _ _ E).
Qed.
Lemma NoDup_snoc : forall A (l : list A) x, NoDup l -> ~ In x l -> NoDup (l ++ [x]).
Proof.
  intros A l x H. induction H as [|y l Hy Hl IH]; intros Hx; simpl; [constructor; [intros []|constructor]|].
  constructor; [intros Hin; apply in_app_or in Hin as [Hin|[->|[]]]; [exact (Hy Hin)|apply Hx; left; reflexivity]|].
  apply IH. intros Hin. apply Hx. right; exact Hin.
Qed.
Lemma ensure_inv : forall s, log_inv s -> log_inv (fst (ensure_handler s)).
Proof.
  intros s H. unfold ensure_handler. destruct (lg_cached s) as [i|] eqn:E; [exact H|].
  destruct H as (N & B & O & C). unfold log_inv; cbn [fst lg_attached lg_handlers lg_cached].
  rewrite app_length; cbn [length].
  split; [apply NoDup_snoc; [exact N|]; intros Hin; specialize (B _ Hin); lia|].
  split; [intros k Hk; apply in_app_or in Hk as [Hk|[<-|[]]]; [specialize (B _ Hk); lia|lia]|].
  split; [|intros k Hk; injection Hk as <-; lia].
  intros k h Hk. destruct (Nat.lt_ge_cases k (length (lg_handlers s))) as [L|L].
  - rewrite nth_error_app1 in Hk by exact L. pose proof (O _ _ Hk) as P. rewrite E in P.
    split; intros Q; [apply P in Q; discriminate|injection Q as Q; lia].
  - rewrite nth_error_app2 in Hk by exact L.
    destruct (k - length (lg_handlers s)) as [|d] eqn:D; cbn in Hk; [|destruct d; discriminate].
    injection Hk as <-. cbn. assert (k = length (lg_handlers s)) as -> by lia. tauto.
Qed.
Lemma set_logfmt_inv : forall a b s, log_inv s -> log_inv (fst (set_logfmt a b s)).
Proof.
  intros a b s H. unfold set_logfmt. pose proof (ensure_inv s H) as K. destruct (ensure_handler s) as [s1 i]; cbn [fst] in K.
  destruct mk_formatter; [|exact K]. cbn [fst]. apply with_handler_inv; [reflexivity|exact K].
Qed.
Lemma set_loglevel_inv : forall l f s, log_inv s -> log_inv (fst (set_loglevel l f s)).
Proof.
  intros l f s H. unfold set_loglevel. destruct check_level as [z|e]; [|exact H].
  assert (K1 : log_inv (with_level s z)) by exact H.
  pose proof (ensure_inv _ K1) as K2. destruct (ensure_handler (with_level s z)) as [s2 i]; cbn [fst] in K2.
  set (s3 := with_handler s2 i _).
  assert (K3 : log_inv s3) by (apply with_handler_inv; [reflexivity|exact K2]).
  destruct f as [f|]; [|exact K3]. destruct (dget presets f) as [[g d]|]; apply set_logfmt_inv; exact K3.
Qed.
Lemma log_step_inv : forall s p, log_inv s -> log_inv (fst (log_step s p)).
Proof.
  intros s [l f|z f|i|z|z] H; [apply set_loglevel_inv; exact H| | |exact H|exact H];
  destruct H as (N & B & O & C); unfold log_inv; cbn [log_step fst lg_attached lg_handlers lg_cached].
  - rewrite app_length; cbn [length].
    split; [apply NoDup_snoc; [exact N|]; intros Hin; specialize (B _ Hin); lia|].
    split; [intros k Hk; apply in_app_or in Hk as [Hk|[<-|[]]]; [specialize (B _ Hk); lia|lia]|].
    split; [|intros k Hk; specialize (C _ Hk); lia].
    intros k h Hk. destruct (Nat.lt_ge_cases k (length (lg_handlers s))) as [L|L].
    + rewrite nth_error_app1 in Hk by exact L. exact (O _ _ Hk).
    + rewrite nth_error_app2 in Hk by exact L.
      destruct (k - length (lg_handlers s)) as [|d] eqn:D; cbn in Hk; [|destruct d; discriminate].
      injection Hk as <-. cbn. split; [discriminate|]. intros Q. specialize (C _ Q). lia.
  - split; [apply NoDup_filter; exact N|]. split; [intros k Hk; apply filter_In in Hk as [Hk _]; apply B; exact Hk|].
    split; [exact O|exact C].
Qed.
Lemma log_init_inv : log_inv log_init.
Proof.
  split; [constructor|]. split; [intros i []|]. split; [intros [|i] h Hh; discriminate|intros i Hi; discriminate].
Qed.
Lemma log_run_inv : forall ps s, log_inv s -> log_inv (log_run s ps).
Proof. induction ps as [|p ps IH]; intros s H; [exact H|]. cbn [log_run fold_left]. apply IH, log_step_inv, H. Qed.

(** ** What one call does *)
Lemma filter_same : forall A (f g : A -> bool) l, (forall x, In x l -> f x = g x) -> filter f l = filter g l.
Proof.
  induction l as [|x l IH]; intros H; [reflexivity|]. cbn [filter]. rewrite (H x (or_introl eq_refl)), IH; [reflexivity|].
  intros y Hy. apply H. right; exact Hy.
Qed.

(** After a call whose level is accepted: the handler of the package, its number and everything else. *)
Record configured (s s' : logst) (z : Z) (fm : option formatter) : Prop := mk_configured {
  cf_level : lg_level s' = z;
  cf_root : lg_root s' = lg_root s;
  cf_cached : exists i, lg_cached s' = Some i /\ nth_error (lg_handlers s') i = Some (mk_handler z fm true) /\
     (lg_cached s = Some i \/ lg_cached s = None) /\
     lg_attached s' = match lg_cached s with Some _ => lg_attached s | None => lg_attached s ++ [i] end /\
     (lg_cached s = None -> i = length (lg_handlers s)) /\
     (forall j, j <> i -> nth_error (lg_handlers s') j = nth_error (lg_handlers s) j) }.
(** the format the handler of the package has before the call ([basic_format] when there is none yet) *)
Definition last_format (s : logst) : option formatter :=
  match lg_cached s with
  | Some i => match nth_error (lg_handlers s) i with Some h => h_fmt h | None => None end
  | None => Some (basic_format, None)
  end.
Definition format_of (f : string) : res formatter :=
  match dget presets f with Some (g, d) => mk_formatter g d | None => mk_formatter f None end.

Lemma configured_none : forall s l z, log_inv s -> check_level (match l with LStr x => LStr (upper x) | l => l end) = Ok z ->
  snd (set_loglevel l None s) = Ok tt /\ configured s (fst (set_loglevel l None s)) z (last_format s).
Proof.
  intros s l z (N & B & O & C) Hz. unfold set_loglevel. rewrite Hz. unfold ensure_handler. cbn [with_level lg_cached].
  unfold last_format. destruct (lg_cached s) as [i|] eqn:E; cbv beta iota zeta; cbn [fst snd].
  - split; [reflexivity|]. pose proof (C _ eq_refl) as L. destruct (nth_error (lg_handlers s) i) as [h|] eqn:Eh.
    2:{ apply nth_error_None in Eh. lia. }
    split; [reflexivity|reflexivity|]. exists i. split; [exact E|].
    split; [rewrite with_handler_nth, Nat.eqb_refl; cbn [with_level lg_handlers]; rewrite Eh; cbn; f_equal; f_equal; apply (O _ _ Eh); reflexivity|].
    rewrite E. split; [left; reflexivity|]. split; [reflexivity|]. split; [discriminate|].
    intros j Hj. rewrite with_handler_nth. destruct (Nat.eqb_spec i j) as [->|]; [contradiction|reflexivity].
  - split; [reflexivity|]. split; [reflexivity|reflexivity|]. exists (length (lg_handlers s)). split; [reflexivity|].
    split; [rewrite with_handler_nth, Nat.eqb_refl; cbn [with_level lg_handlers]; rewrite nth_error_app2, Nat.sub_diag by lia; reflexivity|].
    rewrite E. split; [right; reflexivity|]. split; [reflexivity|]. split; [reflexivity|].
    intros j Hj. rewrite with_handler_nth. cbn [with_level lg_handlers].
    destruct (Nat.eqb_spec (length (lg_handlers s)) j) as [Hl|]; [subst j; contradiction|].
    destruct (Nat.lt_ge_cases j (length (lg_handlers s))) as [L|L].
    + apply nth_error_app1, L.
    + rewrite nth_error_app2 by exact L. rewrite (proj2 (nth_error_None _ _) L).
      destruct (j - length (lg_handlers s)) as [|d] eqn:D; [lia|]. destruct d; reflexivity.
Qed.

Lemma set_loglevel_some : forall s l z f, check_level (match l with LStr x => LStr (upper x) | l => l end) = Ok z ->
  exists i, lg_cached (fst (set_loglevel l None s)) = Some i /\
  set_loglevel l (Some f) s =
  match format_of f with
  | Ok fm => (with_handler (fst (set_loglevel l None s)) i (fun h => mk_handler (h_level h) (Some fm) (h_ours h)), Ok tt)
  | Err e => (fst (set_loglevel l None s), Err e)
  end.
Proof.
  intros s l z f Hz. unfold set_loglevel, format_of. rewrite Hz. unfold ensure_handler. cbn [with_level lg_cached].
  destruct (lg_cached s) as [i|] eqn:E; cbv beta iota zeta; cbn [fst].
  - exists i. split; [exact E|]. destruct (dget presets f) as [[g d]|]; unfold set_logfmt, ensure_handler; cbn [with_handler with_level lg_cached];
    rewrite E; destruct mk_formatter; reflexivity.
  - exists (length (lg_handlers s)). split; [reflexivity|].
    destruct (dget presets f) as [[g d]|]; unfold set_logfmt, ensure_handler; cbn [with_handler with_level lg_cached lg_handlers];
    destruct mk_formatter; reflexivity.
Qed.

Lemma configured_some : forall s l z f fm, log_inv s -> check_level (match l with LStr x => LStr (upper x) | l => l end) = Ok z ->
  format_of f = Ok fm ->
  snd (set_loglevel l (Some f) s) = Ok tt /\ configured s (fst (set_loglevel l (Some f) s)) z (Some fm).
Proof.
  intros s l z f fm I Hz Hf. destruct (set_loglevel_some s l z f Hz) as (i & Hc & ->). rewrite Hf.
  destruct (configured_none s l z I Hz) as (_ & [A1 A2 (k & K1 & K2 & K3 & K4 & K5 & K6)]).
  rewrite Hc in K1. injection K1 as <-. cbn [fst snd]. split; [reflexivity|].
  split; [exact A1|exact A2|]. exists i. split; [exact Hc|].
  split; [rewrite with_handler_nth, Nat.eqb_refl, K2; reflexivity|].
  split; [exact K3|]. split; [exact K4|]. split; [exact K5|].
  intros j Hj. rewrite with_handler_nth. destruct (Nat.eqb_spec i j) as [->|]; [contradiction|apply K6; exact Hj].
Qed.

(** The outcome of a call, whatever its arguments. *)
Lemma call_cases : forall s l f, log_inv s ->
  match check_level (match l with LStr x => LStr (upper x) | l => l end) with
  | Err e => set_loglevel l f s = (s, Err e)
  | Ok z => exists fm, configured s (fst (set_loglevel l f s)) z fm /\
            match f with
            | None => fm = last_format s /\ snd (set_loglevel l f s) = Ok tt
            | Some g => match format_of g with
                        | Ok fm' => fm = Some fm' /\ snd (set_loglevel l f s) = Ok tt
                        | Err e => fm = last_format s /\ snd (set_loglevel l f s) = Err e /\ fst (set_loglevel l f s) = fst (set_loglevel l None s)
                        end
            end
  end.
Proof.
  intros s l f I. destruct (check_level _) as [z|e] eqn:Hz.
  - destruct (configured_none s l z I Hz) as (R & K). destruct f as [g|].
    + destruct (format_of g) as [fm'|e] eqn:Hf.
      * destruct (configured_some s l z g fm' I Hz Hf) as (R' & K'). exists (Some fm'). split; [exact K'|]. split; [reflexivity|exact R'].
      * destruct (set_loglevel_some s l z g Hz) as (i & _ & Q). rewrite Hf in Q. rewrite Q. cbn [fst snd].
        exists (last_format s). split; [exact K|]. split; [reflexivity|]. split; reflexivity.
    + exists (last_format s). split; [exact K|]. split; [reflexivity|exact R].
  - unfold set_loglevel. rewrite Hz. reflexivity.
Qed.

Lemma ours_cached : forall s i, log_inv s -> (made_by_package s i = true <-> lg_cached s = Some i).
Proof.
  intros s i (N & B & O & C). unfold made_by_package. destruct (nth_error (lg_handlers s) i) as [h|] eqn:E; [exact (O _ _ E)|].
  split; [discriminate|]. intros Q. apply C in Q. apply nth_error_None in E. lia.
Qed.
Lemma package_handlers_cached : forall s i, log_inv s -> (In i (package_handlers s) <-> In i (lg_attached s) /\ lg_cached s = Some i).
Proof. intros s i I. unfold package_handlers. rewrite filter_In, ours_cached by exact I. reflexivity. Qed.
Lemma NoDup_const : forall (l : list nat) i, NoDup l -> (forall j, In j l -> j = i) -> l = [] \/ l = [i].
Proof.
  intros [|a [|b l]] i N H; [left; reflexivity|right; rewrite (H a (or_introl eq_refl)); reflexivity|].
  exfalso. inversion N as [|? ? Na _]; subst. apply Na. rewrite (H a (or_introl eq_refl)), (H b (or_intror (or_introl eq_refl))). left; reflexivity.
Qed.
Lemma package_handlers_le : forall s, log_inv s -> package_handlers s = [] \/ exists i, lg_cached s = Some i /\ package_handlers s = [i].
Proof.
  intros s I. destruct (lg_cached s) as [i|] eqn:E.
  - destruct (NoDup_const (package_handlers s) i) as [H|H]; [apply NoDup_filter, I| |left; exact H|right; exists i; split; [reflexivity|exact H]].
    intros j Hj. apply (package_handlers_cached s j I) in Hj as [_ Hj]. rewrite E in Hj. injection Hj as ->. reflexivity.
  - left. destruct (package_handlers s) as [|j l] eqn:P; [reflexivity|].
    assert (Hj : In j (package_handlers s)) by (rewrite P; left; reflexivity).
    apply (package_handlers_cached s j I) in Hj as [_ Hj]. rewrite E in Hj. discriminate.
Qed.
(** without a removal the handler stays attached *)
Definition kept (s : logst) : Prop := forall i, lg_cached s = Some i -> In i (lg_attached s).
Lemma call_kept : forall s l f, log_inv s -> kept s -> kept (fst (set_loglevel l f s)).
Proof.
  intros s l f I K. pose proof (call_cases s l f I) as H. destruct (check_level _) as [z|e].
  - destruct H as (fm & [_ _ (i & C1 & _ & C3 & C4 & _)] & _). intros j Hj. rewrite C1 in Hj. injection Hj as <-.
    rewrite C4. destruct C3 as [C3|C3]; rewrite C3; [apply K; exact C3|apply in_or_app; right; left; reflexivity].
  - rewrite H. exact K.
Qed.
Lemma run_kept : forall ps s, log_inv s -> kept s -> no_removal ps -> kept (log_run s ps).
Proof.
  induction ps as [|p ps IH]; intros s I K R; [exact K|]. cbn [log_run fold_left].
  apply IH; [apply log_step_inv, I| |intros i Hi; apply (R i); right; exact Hi].
  destruct p as [l f|z f|i|z|z]; [apply call_kept; [exact I|exact K]| |exfalso; apply (R i); left; reflexivity|exact K|exact K].
  intros i Hi. cbn [log_step fst lg_attached lg_cached] in Hi |- *. apply in_or_app. left. apply K, Hi.
Qed.
Lemma init_kept : kept log_init.
Proof. intros i Hi. discriminate. Qed.
Lemma call_handler : forall s l f z fm, log_inv s -> kept s -> configured s (fst (set_loglevel l f s)) z fm ->
  exists i, package_handlers (fst (set_loglevel l f s)) = [i] /\ In i (lg_attached (fst (set_loglevel l f s))) /\
            nth_error (lg_handlers (fst (set_loglevel l f s))) i = Some (mk_handler z fm true).
Proof.
  intros s l f z fm I K [_ _ (i & C1 & C2 & _)].
  pose proof (set_loglevel_inv l f s I) as I'. pose proof (call_kept s l f I K i C1) as A.
  exists i. split; [|split; [exact A|exact C2]].
  destruct (package_handlers_le _ I') as [E|(j & Ej & E)].
  - assert (Hi : In i (package_handlers (fst (set_loglevel l f s)))) by (apply package_handlers_cached; [exact I'|split; [exact A|exact C1]]).
    rewrite E in Hi. destruct Hi.
  - rewrite C1 in Ej. injection Ej as <-. exact E.
Qed.

(** ** C88: one handler, and nothing of the user's is touched *)
(** In every history - calls that return or raise, handlers attached or removed by the user, levels changed - at most one
    handler of the package is attached to the logger. *)
Theorem C88_one_handler : forall ps, length (package_handlers (log_run log_init ps)) <= 1.
Proof.
  intros ps. destruct (package_handlers_le (log_run log_init ps) (log_run_inv ps _ log_init_inv)) as [->|(i & _ & ->)]; cbn; lia.
Qed.
Print Assumptions C88_one_handler.
(** A call that returns leaves exactly one attached, unless the user removed one before. *)
Theorem C88_attached : forall ps l f, no_removal ps ->
  snd (set_loglevel l f (log_run log_init ps)) = Ok tt ->
  length (package_handlers (fst (set_loglevel l f (log_run log_init ps)))) = 1.
Proof.
  intros ps l f R H. set (s := log_run log_init ps) in *.
  assert (I : log_inv s) by apply log_run_inv, log_init_inv.
  assert (K : kept s) by (apply run_kept; [apply log_init_inv|apply init_kept|exact R]).
  pose proof (call_cases s l f I) as Q. destruct (check_level _) as [z|e]; [|rewrite Q in H; discriminate].
  destruct Q as (fm & Q & _). destruct (call_handler s l f z fm I K Q) as (i & -> & _). reflexivity.
Qed.
Print Assumptions C88_attached.
(** Whatever the arguments, a call leaves the level of the root logger, the handlers the user attached (which, in which
    order) and their levels and formats as they were. *)
Theorem C88_users_untouched : forall ps l f,
  let s := log_run log_init ps in let s' := fst (set_loglevel l f s) in
  lg_root s' = lg_root s /\ user_handlers s' = user_handlers s /\
  forall i h, nth_error (lg_handlers s) i = Some h -> h_ours h = false -> nth_error (lg_handlers s') i = Some h.
Proof.
  intros ps l f s s'. assert (I : log_inv s) by apply log_run_inv, log_init_inv.
  pose proof (set_loglevel_inv l f s I) as I'. fold s' in I'.
  pose proof (call_cases s l f I) as Q. destruct (check_level _) as [z|e].
  2:{ unfold s'. rewrite Q. split; [reflexivity|]. split; [reflexivity|]. intros i h Hh _. exact Hh. }
  destruct Q as (fm & [_ A2 (i & C1 & C2 & C3 & C4 & C5 & C6)] & _). fold s' in A2, C1, C2, C4, C6.
  split; [exact A2|]. split.
  - assert (Hi : made_by_package s' i = true) by (apply ours_cached; [exact I'|exact C1]).
    assert (Hsame : forall j, In j (lg_attached s) -> made_by_package s' j = made_by_package s j).
    { intros j Hj. apply Bool.eq_iff_eq_true. rewrite (ours_cached _ j I'), (ours_cached _ j I), C1.
      destruct C3 as [C3|C3]; rewrite C3; [reflexivity|]. split; [|discriminate]. intros W. injection W as W.
      destruct I as (_ & B & _). specialize (B _ Hj). specialize (C5 C3). lia. }
    unfold user_handlers. rewrite C4. destruct (lg_cached s) as [k|] eqn:E.
    + apply filter_same. intros j Hj. rewrite Hsame by exact Hj. reflexivity.
    + rewrite filter_app. cbn [filter]. rewrite Hi. cbn [negb]. rewrite app_nil_r. apply filter_same. intros j Hj. rewrite Hsame by exact Hj. reflexivity.
  - intros j h Hj Ho. rewrite C6; [exact Hj|]. intros ->.
    destruct C3 as [C3|C3].
    + destruct I as (_ & _ & O & _). apply (O _ _ Hj) in C3. rewrite C3 in Ho. discriminate.
    + rewrite (C5 C3) in Hj. rewrite (proj2 (nth_error_None _ _) (le_n _)) in Hj. discriminate.
Qed.
Print Assumptions C88_users_untouched.
(** three calls, one of them rejected, and a handler of the user in between *)
Definition some_history : list log_op :=
  [LSet (LStr "info") default_fmt; LAdd 20 (Some ("%(message)s", None)); LSet (LStr "error") (Some "basic"); LSet (LInt 15) None].
Example C88_nonvacuous : package_handlers (log_run log_init some_history) = [0] /\ user_handlers (log_run log_init some_history) = [1] /\
  no_removal some_history /\ snd (set_loglevel (LStr "Debug") (Some "plain") (log_run log_init some_history)) = Ok tt.
Proof.
  split; [vm_compute; reflexivity|]. split; [vm_compute; reflexivity|]. split; [|vm_compute; reflexivity].
  intros i H. cbn in H. repeat (destruct H as [H|H]; [discriminate|]). destruct H.
Qed.

(** ** C89: which records are written *)
(** Refuted: after set_loglevel("notset") a debug record is not written - the logger then takes the level of the root
    logger, which is WARNING in a fresh process. *)
Theorem C89_refuted : ~ (forall ps l f z n, no_removal ps -> denotes l z -> (0 < n)%Z ->
  snd (set_loglevel l f (log_run log_init ps)) = Ok tt ->
  (package_writes (fst (set_loglevel l f (log_run log_init ps))) n <-> (z <= n)%Z)).
Proof.
  intros H. specialize (H [] (LStr "notset") default_fmt 0%Z 10%Z).
  assert (D : denotes (LStr "notset") 0) by (right; exists "notset", "notset"; split; [reflexivity|split; [reflexivity|left; reflexivity]]).
  destruct (H (fun _ X => X) D ltac:(lia) ltac:(vm_compute; reflexivity)) as [_ B].
  destruct (B ltac:(lia)) as (i & _ & _ & _ & E & _). vm_compute in E. apply E. reflexivity.
Qed.
Print Assumptions C89_refuted.
(** For every level: the record is written exactly when it reaches the level and, for the level 0, also that of the root
    logger. *)
Theorem C89_exact : forall ps l f z n, no_removal ps -> denotes l z -> (0 < n)%Z ->
  snd (set_loglevel l f (log_run log_init ps)) = Ok tt ->
  (package_writes (fst (set_loglevel l f (log_run log_init ps))) n <->
   (z <= n)%Z /\ (z = 0%Z -> (lg_root (log_run log_init ps) <= n)%Z)).
Proof.
  intros ps l f z n R D Hn H. set (s := log_run log_init ps) in *.
  assert (I : log_inv s) by apply log_run_inv, log_init_inv.
  assert (K : kept s) by (apply run_kept; [apply log_init_inv|apply init_kept|exact R]).
  pose proof (call_cases s l f I) as Q. rewrite (denotes_checked l z D) in Q.
  destruct Q as (fm & Q & _). pose proof (cf_level _ _ _ _ Q) as A1. pose proof (cf_root _ _ _ _ Q) as A2.
  destruct (call_handler s l f z fm I K Q) as (i & P & A & E).
  unfold package_writes. rewrite P. unfold writes, effective. rewrite A1, A2.
  split.
  - intros (j & [<-|[]] & _ & _ & B & h & Eh & L). rewrite E in Eh. injection Eh as <-. cbn in L. split; [exact L|].
    intros ->. exact B.
  - intros (L & L0). exists i. split; [left; reflexivity|]. split; [exact A|]. split; [exact Hn|].
    split; [destruct (Z.eqb_spec z 0) as [->|]; [apply L0; reflexivity|exact L]|].
    exists (mk_handler z fm true). split; [exact E|exact L].
Qed.
Print Assumptions C89_exact.
Theorem C89_partial : forall ps l f z n, no_removal ps -> denotes l z -> z <> 0%Z -> (0 < n)%Z ->
  snd (set_loglevel l f (log_run log_init ps)) = Ok tt ->
  (package_writes (fst (set_loglevel l f (log_run log_init ps))) n <-> (z <= n)%Z).
Proof. intros ps l f z n R D Hz Hn H. rewrite (C89_exact ps l f z n R D Hn H). intuition. Qed.
Print Assumptions C89_partial.
(** Every documented level, in any capitalisation, and every int is accepted (with the default format, or none). *)
Theorem C89_accepts : forall ps l z, denotes l z ->
  snd (set_loglevel l None (log_run log_init ps)) = Ok tt /\ snd (set_loglevel l default_fmt (log_run log_init ps)) = Ok tt.
Proof.
  intros ps l z D. assert (I : log_inv (log_run log_init ps)) by apply log_run_inv, log_init_inv.
  pose proof (call_cases _ l None I) as Q1. pose proof (call_cases _ l default_fmt I) as Q2.
  rewrite (denotes_checked l z D) in Q1, Q2. destruct Q1 as (? & _ & _ & Q1), Q2 as (? & _ & Q2).
  split; [exact Q1|]. vm_compute (format_of "timed") in Q2. exact (proj2 Q2).
Qed.
Print Assumptions C89_accepts.
Example C89_nonvacuous : denotes (LStr "DeBug") 10 /\ denotes (LInt 25) 25 /\
  package_writes (fst (set_loglevel (LStr "DeBug") (Some "plain") (log_run log_init some_history))) 10.
Proof.
  assert (D : denotes (LStr "DeBug") 10) by (right; exists "DeBug", "debug"; split; [reflexivity|split; [reflexivity|right; left; reflexivity]]).
  split; [exact D|]. split; [left; reflexivity|].
  apply (C89_partial some_history (LStr "DeBug") (Some "plain") 10%Z 10%Z); [apply C88_nonvacuous|exact D|discriminate|lia|vm_compute; reflexivity|lia].
Qed.

(** ** C90: a call that raises *)
(** Refuted: set_loglevel("error", fmt="basic") raises a ValueError, but the debug records written before are no longer
    written. *)
Theorem C90_refuted : ~ (forall ps l f e, snd (set_loglevel l f (log_run log_init ps)) = Err e ->
  forall n, package_writes (log_run log_init ps) n <-> package_writes (fst (set_loglevel l f (log_run log_init ps))) n).
Proof.
  intros H. specialize (H [LSet (LStr "debug") default_fmt] (LStr "error") (Some "basic") ValueError ltac:(vm_compute; reflexivity) 10%Z).
  assert (D : denotes (LStr "debug") 10) by (right; exists "debug", "debug"; split; [reflexivity|split; [reflexivity|right; left; reflexivity]]).
  destruct H as [H _]. destruct H as (i & _ & _ & _ & E & _).
  - apply (C89_partial [] (LStr "debug") default_fmt 10%Z 10%Z); [intros i []|exact D|discriminate|lia|vm_compute; reflexivity|lia].
  - vm_compute in E. apply E. reflexivity.
Qed.
Print Assumptions C90_refuted.
(** A call raises for a level that logging does not know, and then changes nothing at all; or for a format string without
    a field, and then has the effect of the same call without a format: the levels are changed, the format is not. *)
Theorem C90_partial : forall ps l f e,
  let s := log_run log_init ps in
  snd (set_loglevel l f s) = Err e ->
  fst (set_loglevel l f s) = s \/
  (f <> None /\ snd (set_loglevel l None s) = Ok tt /\ fst (set_loglevel l f s) = fst (set_loglevel l None s)).
Proof.
  intros ps l f e s H. assert (I : log_inv s) by apply log_run_inv, log_init_inv.
  pose proof (call_cases s l f I) as Q. pose proof (call_cases s l None I) as Q0. destruct (check_level _) as [z|e'].
  - right. destruct Q0 as (_ & _ & _ & Q0). destruct Q as (fm & _ & Q). destruct f as [g|]; [|destruct Q as [_ Q]; rewrite Q in H; discriminate].
    split; [discriminate|]. split; [exact Q0|]. destruct (format_of g); [destruct Q as [_ Q]; rewrite Q in H; discriminate|apply Q].
  - left. rewrite Q. reflexivity.
Qed.
Print Assumptions C90_partial.
(** In either case no handler's format changes. *)
Theorem C90_formats : forall ps l f e i h,
  let s := log_run log_init ps in
  snd (set_loglevel l f s) = Err e -> nth_error (lg_handlers s) i = Some h ->
  exists h', nth_error (lg_handlers (fst (set_loglevel l f s))) i = Some h' /\ h_fmt h' = h_fmt h.
Proof.
  intros ps l f e i h s H Hh. assert (I : log_inv s) by apply log_run_inv, log_init_inv.
  pose proof (call_cases s l f I) as Q. destruct (check_level _) as [z|e'].
  - destruct Q as (fm & [_ _ (k & C1 & C2 & C3 & C4 & C5 & C6)] & Q).
    assert (F : fm = last_format s).
    { destruct f as [g|]; [|apply Q]. destruct (format_of g); [destruct Q as [_ Q]; rewrite Q in H; discriminate|apply Q]. }
    destruct (Nat.eq_dec i k) as [->|Hik]; [|exists h; split; [rewrite C6 by exact Hik; exact Hh|reflexivity]].
    exists (mk_handler z fm true). split; [exact C2|]. rewrite F. cbn [h_fmt]. unfold last_format.
    destruct C3 as [C3|C3]; rewrite C3; [rewrite Hh; reflexivity|].
    rewrite (C5 C3), (proj2 (nth_error_None _ _) (le_n _)) in Hh. discriminate.
  - rewrite Q. exists h. split; [exact Hh|reflexivity].
Qed.
Print Assumptions C90_formats.
Example C90_nonvacuous :
  snd (set_loglevel (LStr "verbose") default_fmt (log_run log_init some_history)) = Err ValueError /\
  snd (set_loglevel LOther default_fmt (log_run log_init some_history)) = Err TypeError /\
  snd (set_loglevel (LStr "info") (Some "no field") (log_run log_init some_history)) = Err ValueError.
Proof. split; [|split]; vm_compute; reflexivity. Qed.

(** ** C91: the documented formats *)
(** Refuted: the documented short-name "basic" is not known and, taken as a format string, rejected. *)
Theorem C91_refuted : ~ (forall ps l z name names, no_removal ps -> denotes l z -> In (name, names) documented_formats ->
  snd (set_loglevel l (Some name) (log_run log_init ps)) = Ok tt /\
  forall fm, In fm (package_formats (fst (set_loglevel l (Some name) (log_run log_init ps)))) -> shows fm names).
Proof.
  intros H. destruct (H [] (LInt 10) 10%Z "basic" ["asctime"; "msecs"; "message"] (fun _ X => X) (or_introl eq_refl) (or_intror (or_introl eq_refl))) as [E _].
  vm_compute in E. discriminate.
Qed.
Print Assumptions C91_refuted.
(** Refuted: nor is the documented default, logging.BASIC_FORMAT, what a call without a format uses. *)
Theorem C91_default_refuted :
  package_formats (fst (set_loglevel (LStr "info") default_fmt log_init)) <> [Some ("%(levelname)s:%(name)s:%(message)s", None)].
Proof. vm_compute. discriminate. Qed.
Print Assumptions C91_default_refuted.
Lemma formats_after : forall ps l f z fm, no_removal ps -> denotes l z -> format_of f = Ok fm ->
  snd (set_loglevel l (Some f) (log_run log_init ps)) = Ok tt /\
  package_formats (fst (set_loglevel l (Some f) (log_run log_init ps))) = [Some fm].
Proof.
  intros ps l f z fm R D F. set (s := log_run log_init ps).
  assert (I : log_inv s) by apply log_run_inv, log_init_inv.
  assert (K : kept s) by (apply run_kept; [apply log_init_inv|apply init_kept|exact R]).
  destruct (configured_some s l z f fm I (denotes_checked l z D) F) as (H & Q). split; [exact H|].
  destruct (call_handler s l (Some f) z (Some fm) I K Q) as (i & P & _ & E).
  unfold package_formats. rewrite P. cbn [flat_map]. rewrite E. reflexivity.
Qed.
Theorem C91_partial : forall ps l z name names, no_removal ps -> denotes l z -> In (name, names) documented_formats -> name <> "basic" ->
  snd (set_loglevel l (Some name) (log_run log_init ps)) = Ok tt /\
  exists fm, package_formats (fst (set_loglevel l (Some name) (log_run log_init ps))) = [fm] /\ shows fm names.
Proof.
  intros ps l z name names R D Hin Hb. cbn [In documented_formats] in Hin.
  destruct Hin as [Hin|[Hin|[Hin|[Hin|[]]]]]; injection Hin as <- <-; [|exfalso; apply Hb; reflexivity| |].
  - destruct (formats_after ps l "plain" z _ R D ltac:(vm_compute; reflexivity)) as (A & B). split; [exact A|].
    eexists. split; [exact B|]. eexists; eexists. split; [reflexivity|vm_compute; reflexivity].
  - destruct (formats_after ps l "timed" z _ R D ltac:(vm_compute; reflexivity)) as (A & B). split; [exact A|].
    eexists. split; [exact B|]. eexists; eexists. split; [reflexivity|vm_compute; reflexivity].
  - destruct (formats_after ps l "debug" z _ R D ltac:(vm_compute; reflexivity)) as (A & B). split; [exact A|].
    eexists. split; [exact B|]. eexists; eexists. split; [reflexivity|vm_compute; reflexivity].
Qed.
Print Assumptions C91_partial.
(** What is documented as "basic" is available as "minimal"; a call without a format uses "timed". *)
Theorem C91_minimal : forall ps l z, no_removal ps -> denotes l z ->
  (snd (set_loglevel l (Some "minimal") (log_run log_init ps)) = Ok tt /\
   exists fm, package_formats (fst (set_loglevel l (Some "minimal") (log_run log_init ps))) = [fm] /\ shows fm ["asctime"; "msecs"; "message"]) /\
  exists fm, package_formats (fst (set_loglevel l default_fmt (log_run log_init ps))) = [fm] /\ shows fm ["asctime"; "msecs"; "levelname"; "message"].
Proof.
  intros ps l z R D. split.
  - destruct (formats_after ps l "minimal" z _ R D ltac:(vm_compute; reflexivity)) as (A & B). split; [exact A|].
    eexists. split; [exact B|]. eexists; eexists. split; [reflexivity|vm_compute; reflexivity].
  - destruct (formats_after ps l "timed" z _ R D ltac:(vm_compute; reflexivity)) as (_ & B).
    eexists. split; [exact B|]. eexists; eexists. split; [reflexivity|vm_compute; reflexivity].
Qed.
Print Assumptions C91_minimal.
(** Any other string: one of the documented logging format strings that contains a field such as %(message)s is used as it
    stands; [pre ++ "%(" ++ field ++ ")s" ++ post] for every [pre], [post] and word [field]. *)
Lemma skip_word : forall w s, forallb is_word w = true -> skip is_word (w ++ s) = skip is_word s.
Proof. induction w as [|c w IH]; intros s H; [reflexivity|]. cbn [forallb] in H. apply andb_prop in H as [H1 H2]. cbn. rewrite H1. apply IH, H2. Qed.
Lemma field_at_word : forall c w post, forallb is_word (c :: w) = true ->
  field_at ("%"%char :: "("%char :: c :: w ++ ")"%char :: "s"%char :: post) = true.
Proof.
  intros c w post H. cbn [forallb] in H. apply andb_prop in H as [H1 H2].
  unfold field_at. rewrite H1, (skip_word w _ H2). reflexivity.
Qed.
Lemma has_field_app : forall pre s, field_at s = true -> has_field (pre ++ s) = true.
Proof.
  induction pre as [|c pre IH]; intros s H; [|cbn [app has_field]; rewrite (IH s H), orb_true_r; reflexivity].
  destruct s as [|c s]; [discriminate|]. cbn [app has_field]. rewrite H. reflexivity.
Qed.
Theorem C91_format_strings : forall ps l z pre c w post f, no_removal ps -> denotes l z ->
  list_ascii_of_string f = pre ++ "%"%char :: "("%char :: (c :: w) ++ ")"%char :: "s"%char :: post ->
  forallb is_word (c :: w) = true ->
  snd (set_loglevel l (Some f) (log_run log_init ps)) = Ok tt /\
  package_formats (fst (set_loglevel l (Some f) (log_run log_init ps))) = [Some (f, None)].
Proof.
  intros ps l z pre c w post f R D Ef Hw. apply (formats_after ps l f z (f, None) R D).
  assert (HF : has_field (list_ascii_of_string f) = true) by (rewrite Ef; apply has_field_app, field_at_word, Hw).
  unfold format_of. destruct (dget presets f) as [[g d]|] eqn:E.
  - exfalso. unfold presets in E. cbn [dget] in E.
    repeat (match type of E with context [if ?b then _ else _] => destruct b eqn:?X; [clear E; apply String.eqb_eq in X; subst f; vm_compute in HF; discriminate|clear X] end).
    discriminate.
  - unfold mk_formatter. destruct f as [|a f]; [discriminate HF|]. rewrite HF. reflexivity.
Qed.
Print Assumptions C91_format_strings.
Example C91_nonvacuous : no_removal some_history /\ denotes (LInt 25) 25 /\
  package_formats (fst (set_loglevel (LInt 25) (Some "[%(levelname)s] %(message)s") (log_run log_init some_history))) = [Some ("[%(levelname)s] %(message)s", None)].
Proof.
  split; [apply C88_nonvacuous|]. split; [left; reflexivity|].
  apply (C91_format_strings some_history (LInt 25) 25%Z (list_ascii_of_string "[") "l" (list_ascii_of_string "evelname") (list_ascii_of_string "] %(message)s"));
  [apply C88_nonvacuous|left; reflexivity|reflexivity|reflexivity].
Qed.

(** ** C92: only the last call counts *)
(** With a format given, what a call returns and the levels and the format it leaves do not depend on the calls before. *)
Theorem C92_last_call : forall ps ps' l f, no_removal ps -> no_removal ps' ->
  let a := set_loglevel l (Some f) (log_run log_init ps) in
  let b := set_loglevel l (Some f) (log_run log_init ps') in
  snd a = snd b /\
  (snd a = Ok tt -> lg_level (fst a) = lg_level (fst b) /\ package_formats (fst a) = package_formats (fst b) /\
     (lg_root (log_run log_init ps) = lg_root (log_run log_init ps') -> forall n, package_writes (fst a) n <-> package_writes (fst b) n)).
Proof.
  intros ps ps' l f R R' a b. set (s := log_run log_init ps) in *. set (s' := log_run log_init ps') in *.
  assert (I : log_inv s) by apply log_run_inv, log_init_inv. assert (I' : log_inv s') by apply log_run_inv, log_init_inv.
  assert (K : kept s) by (apply run_kept; [apply log_init_inv|apply init_kept|exact R]).
  assert (K' : kept s') by (apply run_kept; [apply log_init_inv|apply init_kept|exact R']).
  pose proof (call_cases s l (Some f) I) as Q. pose proof (call_cases s' l (Some f) I') as Q'. fold a in Q. fold b in Q'.
  destruct (check_level _) as [z|e]; [|rewrite Q, Q'; split; [reflexivity|discriminate]].
  destruct Q as (fm & Q & E), Q' as (fm' & Q' & E').
  destruct (format_of f) as [g|e]; [|destruct E as (_ & -> & _), E' as (_ & -> & _); split; [reflexivity|discriminate]].
  destruct E as (-> & ->), E' as (-> & ->). split; [reflexivity|]. intros _.
  destruct (call_handler s l (Some f) z (Some g) I K Q) as (i & P & A & H).
  destruct (call_handler s' l (Some f) z (Some g) I' K' Q') as (i' & P' & A' & H').
  fold a in P, A, H. fold b in P', A', H'.
  pose proof (cf_level _ _ _ _ Q) as L. pose proof (cf_level _ _ _ _ Q') as L'.
  pose proof (cf_root _ _ _ _ Q) as T. pose proof (cf_root _ _ _ _ Q') as T'.
  split; [rewrite L, L'; reflexivity|]. split; [unfold package_formats; rewrite P, P'; cbn [flat_map]; rewrite H, H'; reflexivity|].
  intros RT n. unfold package_writes, writes, effective. rewrite P, P', L, L', T, T', RT.
  split; intros (j & [<-|[]] & _ & N & EF & h & Hh & Lh).
  - rewrite H in Hh. injection Hh as <-. exists i'. split; [left; reflexivity|]. split; [exact A'|]. split; [exact N|]. split; [exact EF|].
    eexists. split; [exact H'|exact Lh].
  - rewrite H' in Hh. injection Hh as <-. exists i. split; [left; reflexivity|]. split; [exact A|]. split; [exact N|]. split; [exact EF|].
    eexists. split; [exact H|exact Lh].
Qed.
Print Assumptions C92_last_call.
(** Without a format, the format of the last call that set one stays; logging.BASIC_FORMAT in a fresh process. *)
Theorem C92_keeps_format : forall ps l z, no_removal ps -> denotes l z ->
  let s := log_run log_init ps in
  package_formats (fst (set_loglevel l None s)) =
  match package_formats s with [] => [Some ("%(levelname)s:%(name)s:%(message)s", None)] | fs => fs end.
Proof.
  intros ps l z R D s. assert (I : log_inv s) by apply log_run_inv, log_init_inv.
  assert (K : kept s) by (apply run_kept; [apply log_init_inv|apply init_kept|exact R]).
  destruct (configured_none s l z I (denotes_checked l z D)) as (_ & Q).
  destruct (call_handler s l None z _ I K Q) as (i & P & _ & H).
  unfold package_formats at 1. rewrite P. cbn [flat_map]. rewrite H. cbn [app h_fmt]. unfold last_format.
  destruct (lg_cached s) as [k|] eqn:E.
  - pose proof (K _ E) as A. assert (Hk : In k (package_handlers s)) by (apply package_handlers_cached; [exact I|split; [exact A|exact E]]).
    destruct (package_handlers_le s I) as [W|(k' & Ek & W)]; [rewrite W in Hk; destruct Hk|].
    rewrite E in Ek. injection Ek as <-. unfold package_formats. rewrite W. cbn [flat_map].
    destruct (nth_error (lg_handlers s) k) as [h|] eqn:Eh; [reflexivity|].
    destruct I as (_ & _ & _ & C). apply C in E. apply nth_error_None in Eh. lia.
  - destruct (package_handlers_le s I) as [W|(k' & Ek & _)]; [|rewrite E in Ek; discriminate].
    unfold package_formats. rewrite W. reflexivity.
Qed.
Print Assumptions C92_keeps_format.
Example C92_nonvacuous :
  package_formats (fst (set_loglevel (LInt 10) None log_init)) = [Some (basic_format, None)] /\
  package_formats (log_run log_init some_history) <> [] /\
  snd (set_loglevel (LInt 10) (Some "plain") (log_run log_init some_history)) = Ok tt.
Proof. split; [vm_compute; reflexivity|]. split; [vm_compute; discriminate|vm_compute; reflexivity]. Qed.
