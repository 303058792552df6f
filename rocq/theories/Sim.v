(** Cache transparency: the program with its nine class-level LRU caches behaves like the program
    with the @lru_cache() decorators removed. *)
From Verif Require Export Machine.
Open Scope nat_scope.

(** what a cached method computes when nothing is cached, as a function of the heap *)
Definition pname_of (s : string) : option pname :=
  if String.eqb s "tau" then Some Tau else if String.eqb s "omega" then Some Omega
  else if String.eqb s "NormBRDF" then Some NormBRDF else if String.eqb s "bsf" then Some Bsf else None.

Definition h_nmax (h : heap) (o : nat) : res nat :=
  let* r := obj h o in
  let* v := scat_at h (r_V r) in let* s := scat_at h (r_SRF r) in
  let* nv := ncoefs v in let* ns := ncoefs s in Ok (nv + ns - 1).
Definition h_mu (h : heap) (o : nat) (a : angle) : res (nd xr) :=
  let* r := obj h o in let* t := read_ang h r a in Ok (ncos t).
Definition h_mux (h : heap) (o : nat) (a : angle) : res (nd xr) :=
  let* n := h_nmax h o in let* mu := h_mu h o a in k_mux n mu.
Definition h_symbs (h : heap) (o : nat) (p : pname) : res (list string) :=
  let* r := obj h o in Ok (match r_def r p with DStr e => free_syms e | _ => [] end).
Definition h_funcs (h : heap) (o : nat) (p : pname) : res (option compiled) :=
  let* r := obj h o in
  match r_def r p with
  | DVal _ => Ok None
  | DStr e | DSym e =>
      let* ss := h_symbs h o p in
      let* c := lambdify (h_be h) (h_seng h) ss [e] in Ok (Some c)
  end.
Definition h_dlam (h : heap) (o : nat) (x : which) (key : string) : res compiled :=
  let* r := obj h o in
  let* s := scat_at h (scat_id r x) in
  match diff key (phase_function s) with
  | None => Err Unmodelled
  | Some e => let* r := obj h o in lambdify (h_be h) (h_seng h) (angle_names ++ dkeys (r_params r)) [e]
  end.
Definition h_lambda (h : heap) (sid : nat) (keys : list string) : res compiled :=
  let* s := scat_at h sid in lambdify (h_be h) (h_seng h) (angle_names ++ keys) [phase_function s].

Definition rfun (r : res compiled) : res cval := let* c := r in Ok (VFun (Some c)).
Definition fresh (h : heap) (n : cname) (k : ckey) : res cval :=
  let o := fst k in
  match n, snd k with
  | CMu0, [] => let* a := h_mu h o T0 in Ok (VArr a)
  | CMuEx, [] => let* a := h_mu h o TEx in Ok (VArr a)
  | CMu0x, [] => let* a := h_mux h o T0 in Ok (VArr a)
  | CMuExx, [] => let* a := h_mux h o TEx in Ok (VArr a)
  | CPSymbs, [s] => match pname_of s with
                    | Some p => let* l := h_symbs h o p in Ok (VStrs l) | None => Err Unmodelled end
  | CPFuncs, [s] => match pname_of s with
                    | Some p => let* f := h_funcs h o p in Ok (VFun f) | None => Err Unmodelled end
  | CDVol, [s] => rfun (h_dlam h o WV s)
  | CDSrf, [s] => rfun (h_dlam h o WSRF s)
  | CLambda, l => rfun (h_lambda h o l)
  | _, _ => Err Unmodelled
  end.

(** every cache entry is what a recomputation would give *)
Definition Coh (w : world) : Prop :=
  forall n k v, In (k, v) (w_caches w n) -> fresh (w_heap w) n k = Ok v.

(** the derivative functions _d_volume_dummy_lambda/_d_surface_dummy_lambda have only been compiled
    for objects in [J] *)
Definition is_D (n : cname) : bool := match n with CDVol | CDSrf => true | _ => false end.
Definition Dok (J : list nat) (w : world) : Prop :=
  forall n k v, is_D n = true -> In (k, v) (w_caches w n) -> In (fst k) J.

Definition Sim (J : list nat) (w u : world) : Prop :=
  w_on w = true /\ w_on u = false /\ w_heap w = w_heap u /\ Coh w /\ Dok J w.

Definition simM {A} (J : list nat) (m : M A) : Prop :=
  forall w u, Sim J w u -> snd (m w) = snd (m u) /\ Sim J (fst (m w)) (fst (m u)).

(** ** LRU bookkeeping *)
Lemma ckey_eqb_eq a b : ckey_eqb a b = true -> a = b.
Proof.
  destruct a as [o l], b as [o' l']. unfold ckey_eqb, list_string_eqb; simpl.
  intros H. apply andb_true_iff in H. destruct H as [H1 H2].
  apply Nat.eqb_eq in H1. destruct (list_eq_dec string_dec l l'); [|discriminate]. now subst.
Qed.
Lemma ckey_eqb_refl a : ckey_eqb a a = true.
Proof.
  destruct a as [o l]. unfold ckey_eqb, list_string_eqb; simpl. rewrite Nat.eqb_refl.
  destruct (list_eq_dec string_dec l l); [reflexivity|contradiction].
Qed.

Lemma lru_get_In c k v : lru_get c k = Some v -> In (k, v) c.
Proof.
  induction c as [|[k' v'] c IH]; simpl; [discriminate|].
  destruct (ckey_eqb k k') eqn:E.
  - intros H; inversion H; subst. apply ckey_eqb_eq in E. subst. now left.
  - intros H. right. auto.
Qed.

Lemma In_touch c k v k' v' : In (k', v') (lru_touch c k v) -> (k', v') = (k, v) \/ In (k', v') c.
Proof.
  unfold lru_touch, lru_del. simpl. intros [H|H]; [left; congruence|].
  right. apply filter_In in H. tauto.
Qed.
Lemma In_firstn {A} n (l : list A) x : In x (firstn n l) -> In x l.
Proof.
  intros H. rewrite <- (firstn_skipn n l). apply in_or_app. now left.
Qed.
Lemma In_put c k v k' v' : In (k', v') (lru_put c k v) -> (k', v') = (k, v) \/ In (k', v') c.
Proof. intros H. apply In_firstn in H. now apply In_touch. Qed.

Lemma cname_eqb_eq a b : cname_eqb a b = true -> a = b.
Proof. destruct a, b; simpl; congruence. Qed.
Lemma cname_eqb_refl a : cname_eqb a a = true.
Proof. destruct a; reflexivity. Qed.

(** replacing a cache by a coherent one *)
Lemma Sim_set_cache J w u n c :
  Sim J w u -> (forall k v, In (k, v) c -> fresh (w_heap w) n k = Ok v) ->
  (is_D n = true -> forall k v, In (k, v) c -> In (fst k) J) -> Sim J (set_cache w n c) u.
Proof.
  intros (Hw & Hu & Hh & HC & HD) H Hd. repeat split; auto.
  - intros m k v. simpl. destruct (cname_eqb n m) eqn:E.
    + apply cname_eqb_eq in E. subst. apply H.
    + apply HC.
  - intros m k v Hm. simpl. destruct (cname_eqb n m) eqn:E.
    + apply cname_eqb_eq in E. subst. intros Hin. eapply Hd; eassumption.
    + now apply HD.
Qed.
Lemma Sim_set_cache_u J w u n c : Sim J w u -> Sim J w (set_cache u n c).
Proof. intros (Hw & Hu & Hh & HC & HD). repeat split; auto. Qed.

(** ** Combinators *)
Lemma sim_ret J {A} (a : A) : simM J (ret a).
Proof. intros w u H. split; [reflexivity|exact H]. Qed.
Lemma sim_fail J {A} e : simM J (@fail A e).
Proof. intros w u H. split; [reflexivity|exact H]. Qed.
Lemma sim_lift J {A} (r : res A) : simM J (lift r).
Proof. intros w u H. split; [reflexivity|exact H]. Qed.
Lemma sim_gets J {A} (f : heap -> res A) : simM J (gets f).
Proof. intros w u H. split; [|exact H]. unfold gets; simpl. destruct H as (_ & _ & -> & _ & _). reflexivity. Qed.

Lemma sim_bind J {A B} (m : M A) (k : A -> M B) : simM J m -> (forall a, simM J (k a)) -> simM J (bind m k).
Proof.
  intros Hm Hk w u H. unfold bind. destruct (Hm w u H) as [He Hs].
  destruct (m w) as [w' r], (m u) as [u' r']; simpl in *. subst r'.
  destruct r as [a|e]; [apply Hk; assumption|]. split; [reflexivity|assumption].
Qed.
Lemma sim_catch J {A} (m : M A) (k : exn -> M A) : simM J m -> (forall a, simM J (k a)) -> simM J (catch m k).
Proof.
  intros Hm Hk w u H. unfold catch. destruct (Hm w u H) as [He Hs].
  destruct (m w) as [w' r], (m u) as [u' r']; simpl in *. subst r'.
  destruct r as [a|e]; [split; [reflexivity|assumption]|]. apply Hk; assumption.
Qed.

(** the state seen by the continuation of [get_obj] *)
Lemma sim_get_obj_bind J {B} o (k : rt1 -> M B) :
  (forall w u r, Sim J w u -> obj (w_heap w) o = Ok r ->
     snd (k r w) = snd (k r u) /\ Sim J (fst (k r w)) (fst (k r u))) ->
  simM J (bind (get_obj o) k).
Proof.
  intros Hk w u H. unfold bind, get_obj, gets.
  destruct H as (H1 & H2 & H3 & H4 & H5).
  rewrite <- H3. destruct (obj (w_heap w) o) as [r|e] eqn:E.
  - apply Hk; [repeat split; assumption|assumption].
  - split; [reflexivity|repeat split; assumption].
Qed.

(** [m] run without caches is the pure reading [f] *)
Definition pureU {A} (m : M A) (f : heap -> res A) : Prop :=
  forall u, w_on u = false -> m u = (u, f (w_heap u)).

Lemma pureU_ret {A} (a : A) : pureU (ret a) (fun _ => Ok a).
Proof. intros u H. reflexivity. Qed.
Lemma pureU_fail {A} e : pureU (@fail A e) (fun _ => Err e).
Proof. intros u H. reflexivity. Qed.
Lemma pureU_lift {A} (r : res A) : pureU (lift r) (fun _ => r).
Proof. intros u H. reflexivity. Qed.
Lemma pureU_gets {A} (f : heap -> res A) : pureU (gets f) f.
Proof. intros u H. reflexivity. Qed.
Lemma pureU_bind {A B} (m : M A) (k : A -> M B) f g :
  pureU m f -> (forall a, pureU (k a) (g a)) ->
  pureU (bind m k) (fun h => match f h with Ok a => g a h | Err e => Err e end).
Proof.
  intros Hm Hk u H. unfold bind. rewrite Hm by assumption.
  destruct (f (w_heap u)); [now apply Hk|reflexivity].
Qed.
Lemma pureU_cached n k m f : pureU m f -> pureU (cached n k m) f.
Proof. intros Hm u H. unfold cached. rewrite H. now apply Hm. Qed.
Lemma pureU_ext {A} (m : M A) f g : pureU m f -> (forall h, f h = g h) -> pureU m g.
Proof. intros Hm He u H. rewrite Hm by assumption. now rewrite He. Qed.

Lemma sim_cached J n k m :
  simM J m -> pureU m (fun h => fresh h n k) -> (is_D n = true -> In (fst k) J) -> simM J (cached n k m).
Proof.
  intros Hs Hp HJ w u HS. unfold cached.
  pose proof HS as (H1 & H2 & H3 & H4 & H5). rewrite H1, H2.
  destruct (lru_get (w_caches w n) k) as [v|] eqn:E.
  - apply lru_get_In in E. pose proof (H4 _ _ _ E) as Hf.
    rewrite Hp by assumption. rewrite <- H3, Hf. simpl. split; [reflexivity|].
    apply Sim_set_cache; [assumption| |].
    + intros k' v' Hin.
      apply In_touch in Hin. destruct Hin as [Hin|Hin]; [inversion Hin; subst; assumption|].
      apply H4. assumption.
    + intros Hn k' v' Hin. apply In_touch in Hin.
      destruct Hin as [Hin|Hin]; [inversion Hin; subst; auto|eapply H5; eassumption].
  - destruct (Hs w u HS) as [He HS'].
    rewrite (Hp u H2) in *.
    destruct (m w) as [w' r]; simpl in *. subst r.
    destruct (fresh (w_heap u) n k) as [v|e] eqn:Ef; simpl; [|split; [reflexivity|assumption]].
    split; [reflexivity|]. pose proof HS' as (H1' & H2' & H3' & H4' & H5').
    apply Sim_set_cache; [assumption| |].
    + intros k' v' Hin. apply In_put in Hin.
      destruct Hin as [Hin|Hin]; [inversion Hin; subst; rewrite H3'; assumption|apply H4'; assumption].
    + intros Hn k' v' Hin. apply In_put in Hin.
      destruct Hin as [Hin|Hin]; [inversion Hin; subst; auto|eapply H5'; eassumption].
Qed.

Lemma sim_cache_clear J n : simM J (cache_clear n).
Proof.
  intros w u H. split; [reflexivity|]. simpl. apply Sim_set_cache_u.
  apply Sim_set_cache; [assumption| |]; [intros k v []|intros _ k v []].
Qed.

(** ** Pure readings of the methods *)
Lemma bind_pureU {A B} (m : M A) (k : A -> M B) f u :
  pureU m f -> w_on u = false ->
  bind m k u = match f (w_heap u) with Ok a => k a u | Err e => (u, Err e) end.
Proof. intros Hm H. unfold bind. rewrite Hm by assumption. destruct (f (w_heap u)); reflexivity. Qed.
Lemma lift_eq {A} (r : res A) u : lift r u = (u, r). Proof. reflexivity. Qed.
Lemma ret_eq {A} (r : A) u : ret r u = (u, Ok r). Proof. reflexivity. Qed.
Lemma fail_eq {A} e u : @fail A e u = (u, Err e). Proof. reflexivity. Qed.

Create HintDb pureU.
#[export] Hint Resolve pureU_ret pureU_fail pureU_lift pureU_gets pureU_cached : pureU.
#[export] Hint Extern 0 (pureU (gets _) _) => apply pureU_gets : pureU.
#[export] Hint Extern 0 (pureU (lift _) _) => apply pureU_lift : pureU.

(** run the first action of a cache-free computation *)
Ltac purestep :=
  match goal with
  | |- context [bind ?m ?k ?u] =>
      erewrite (bind_pureU m k _ u) by (first [assumption | solve [eauto with pureU]]); cbv beta
  end.
Ltac puredestr :=
  match goal with
  | |- context [match ?x with Ok _ => _ | Err _ => _ end] => destruct x eqn:?; simpl; try reflexivity
  | |- context [rbind ?x _] => destruct x eqn:?; simpl; try reflexivity
  end.
Ltac purego := intros u Hu; repeat (first [purestep; cbn beta | puredestr]); try reflexivity.

Lemma pname_of_str p : pname_of (pname_str p) = Some p.
Proof. destruct p; reflexivity. Qed.

Lemma pure_get_obj o : pureU (get_obj o) (fun h => obj h o).
Proof. apply pureU_gets. Qed.
Lemma pure_m_ang o a : pureU (m_ang o a) (fun h => let* r := obj h o in read_ang h r a).
Proof. apply pureU_gets. Qed.
Lemma pure_get_I0 o : pureU (get_I0 o) (fun h => let* r := obj h o in deref h (r_I0 r)).
Proof. apply pureU_gets. Qed.
Lemma pure_nmax o : pureU (m_nmax o) (fun h => h_nmax h o).
Proof. apply pureU_gets. Qed.
#[export] Hint Resolve pure_get_obj pure_m_ang pure_get_I0 pure_nmax : pureU.

Lemma body_mu_0 o : pureU (do t <- m_ang o T0 ;; ret (VArr (ncos t))) (fun h => fresh h CMu0 (o, [])).
Proof.
  intros u Hu. purestep. unfold fresh, h_mu; cbn [fst snd].
  destruct (obj (w_heap u) o) as [r|]; [|reflexivity]. cbn [rbind].
  destruct (read_ang (w_heap u) r T0); reflexivity.
Qed.
#[export] Hint Resolve body_mu_0 : pureU.
Lemma pure_mu_0 o : pureU (mu_0 o) (fun h => h_mu h o T0).
Proof.
  unfold mu_0. intros u Hu. purestep. unfold fresh; cbn [fst snd].
  destruct (h_mu (w_heap u) o T0); reflexivity.
Qed.
Lemma body_mu_ex o : pureU (do t <- m_ang o TEx ;; ret (VArr (ncos t))) (fun h => fresh h CMuEx (o, [])).
Proof.
  intros u Hu. purestep. unfold fresh, h_mu; cbn [fst snd].
  destruct (obj (w_heap u) o) as [r|]; [|reflexivity]. cbn [rbind].
  destruct (read_ang (w_heap u) r TEx); reflexivity.
Qed.
#[export] Hint Resolve body_mu_ex : pureU.
Lemma pure_mu_ex o : pureU (mu_ex o) (fun h => h_mu h o TEx).
Proof.
  unfold mu_ex. intros u Hu. purestep. unfold fresh; cbn [fst snd].
  destruct (h_mu (w_heap u) o TEx); reflexivity.
Qed.
#[export] Hint Resolve pure_mu_0 pure_mu_ex : pureU.

Lemma body_mu_0_x o :
  pureU (do n <- m_nmax o ;; do mu <- mu_0 o ;; do x <- lift (k_mux n mu) ;; ret (VArr x))
        (fun h => fresh h CMu0x (o, [])).
Proof.
  intros u Hu. purestep. unfold fresh, h_mux; cbn [fst snd].
  destruct (h_nmax (w_heap u) o); [|reflexivity]. cbn [rbind].
  purestep. destruct (h_mu (w_heap u) o T0); [|reflexivity]. cbn [rbind].
  purestep. destruct (k_mux _ _); reflexivity.
Qed.
#[export] Hint Resolve body_mu_0_x : pureU.
Lemma pure_mu_0_x o : pureU (mu_0_x o) (fun h => h_mux h o T0).
Proof.
  unfold mu_0_x. intros u Hu. purestep. unfold fresh; cbn [fst snd].
  destruct (h_mux (w_heap u) o T0); reflexivity.
Qed.
Lemma body_mu_ex_x o :
  pureU (do n <- m_nmax o ;; do mu <- mu_ex o ;; do x <- lift (k_mux n mu) ;; ret (VArr x))
        (fun h => fresh h CMuExx (o, [])).
Proof.
  intros u Hu. purestep. unfold fresh, h_mux; cbn [fst snd].
  destruct (h_nmax (w_heap u) o); [|reflexivity]. cbn [rbind].
  purestep. destruct (h_mu (w_heap u) o TEx); [|reflexivity]. cbn [rbind].
  purestep. destruct (k_mux _ _); reflexivity.
Qed.
#[export] Hint Resolve body_mu_ex_x : pureU.
Lemma pure_mu_ex_x o : pureU (mu_ex_x o) (fun h => h_mux h o TEx).
Proof.
  unfold mu_ex_x. intros u Hu. purestep. unfold fresh; cbn [fst snd].
  destruct (h_mux (w_heap u) o TEx); reflexivity.
Qed.
#[export] Hint Resolve pure_mu_0_x pure_mu_ex_x : pureU.

Lemma body_symbs o p :
  pureU (do r <- get_obj o ;; ret (VStrs (match r_def r p with DStr e => free_syms e | _ => [] end)))
        (fun h => fresh h CPSymbs (o, [pname_str p])).
Proof.
  intros u Hu. purestep. unfold fresh; cbn [fst snd]. rewrite pname_of_str. unfold h_symbs.
  destruct (obj (w_heap u) o); reflexivity.
Qed.
#[export] Hint Resolve body_symbs : pureU.
Lemma pure_symbs o p : pureU (get_param_symbs o p) (fun h => h_symbs h o p).
Proof.
  unfold get_param_symbs. intros u Hu. purestep. unfold fresh; cbn [fst snd].
  rewrite pname_of_str. destruct (h_symbs (w_heap u) o p); reflexivity.
Qed.
#[export] Hint Resolve pure_symbs : pureU.

Definition funcs_body (o : nat) (p : pname) : M cval :=
    (do r <- get_obj o ;;
     match r_def r p with
     | DVal _ => ret (VFun None)
     | DStr e | DSym e =>
         do syms <- get_param_symbs o p ;;
         do c <- gets (fun h => lambdify (h_be h) (h_seng h) syms [e]) ;;
         ret (VFun (Some c))
     end).
Lemma body_funcs o p : pureU (funcs_body o p) (fun h => fresh h CPFuncs (o, [pname_str p])).
Proof.
  intros u Hu. unfold funcs_body. purestep.
  unfold fresh; cbn [fst snd]. rewrite pname_of_str. unfold h_funcs.
  destruct (obj (w_heap u) o) as [r|e] eqn:E; cbn [rbind]; [|reflexivity].
  destruct (r_def r p) as [d|d|v] eqn:Ed; [| |reflexivity];
    purestep; destruct (h_symbs (w_heap u) o p); cbn [rbind]; try reflexivity;
    purestep; destruct (lambdify _ _ _ _); reflexivity.
Qed.
#[export] Hint Resolve body_funcs : pureU.
Lemma pure_funcs o p : pureU (get_param_funcs o p) (fun h => h_funcs h o p).
Proof.
  unfold get_param_funcs. fold (funcs_body o p). intros u Hu. purestep.
  unfold fresh; cbn [fst snd]. rewrite pname_of_str. destruct (h_funcs (w_heap u) o p); reflexivity.
Qed.

Lemma body_lambda sid keys :
  pureU (do c <- gets (fun h => let* s := scat_at h sid in
          lambdify (h_be h) (h_seng h) (angle_names ++ keys) [phase_function s]) ;;
      ret (VFun (Some c))) (fun h => fresh h CLambda (sid, keys)).
Proof.
  intros u Hu. purestep.
  assert (Hf : fresh (w_heap u) CLambda (sid, keys) = rfun (h_lambda (w_heap u) sid keys))
    by (destruct keys; reflexivity).
  rewrite Hf. unfold h_lambda, rfun. destruct (scat_at (w_heap u) sid); cbn [rbind]; [|reflexivity].
  destruct (lambdify _ _ _ _); reflexivity.
Qed.
#[export] Hint Resolve body_lambda : pureU.
Lemma pure_lambda sid keys : pureU (lambda_func sid keys) (fun h => h_lambda h sid keys).
Proof.
  unfold lambda_func. intros u Hu. purestep.
  assert (Hf : fresh (w_heap u) CLambda (sid, keys) = rfun (h_lambda (w_heap u) sid keys))
    by (destruct keys; reflexivity).
  rewrite Hf. unfold rfun. destruct (h_lambda (w_heap u) sid keys); reflexivity.
Qed.
#[export] Hint Resolve pure_funcs pure_lambda : pureU.

Definition dlam_body (o : nat) (x : which) (key : string) : M cval :=
    (do r <- get_obj o ;;
     do s <- gets (fun h => scat_at h (scat_id r x)) ;;
     do c <- lambdify_diff o (diff key (phase_function s)) ;;
     ret (VFun (Some c))).
Definition dname (x : which) : cname := match x with WV => CDVol | WSRF => CDSrf end.
Definition h_ldiff (o : nat) (d : option expr) (h : heap) : res compiled :=
  match d with
  | None => Err Unmodelled
  | Some e => let* r := obj h o in lambdify (h_be h) (h_seng h) (angle_names ++ dkeys (r_params r)) [e]
  end.
Lemma pure_ldiff o d : pureU (lambdify_diff o d) (h_ldiff o d).
Proof.
  unfold lambdify_diff. intros u Hu. destruct d; [|reflexivity].
  purestep. unfold h_ldiff. destruct (obj (w_heap u) o); reflexivity.
Qed.
#[export] Hint Resolve pure_ldiff : pureU.
Lemma fresh_d h o x key : fresh h (dname x) (o, [key]) = rfun (h_dlam h o x key).
Proof. destruct x; reflexivity. Qed.
Lemma body_dlam o x key : pureU (dlam_body o x key) (fun h => fresh h (dname x) (o, [key])).
Proof.
  intros u Hu. unfold dlam_body. purestep. rewrite fresh_d. unfold h_dlam, rfun.
  destruct (obj (w_heap u) o) as [r|e] eqn:E; cbn [rbind]; [|reflexivity].
  purestep. destruct (scat_at (w_heap u) (scat_id r x)) as [s|] eqn:Es; cbn [rbind]; [|reflexivity].
  purestep. unfold h_ldiff. destruct (diff key (phase_function s)); [|reflexivity].
  rewrite E. cbn [rbind]. destruct (lambdify _ _ _ _); reflexivity.
Qed.
#[export] Hint Resolve body_dlam : pureU.
Lemma pure_dlam o x key : pureU (d_dummy_lambda o x key) (fun h => h_dlam h o x key).
Proof.
  unfold d_dummy_lambda. fold (dname x). fold (dlam_body o x key). intros u Hu. purestep.
  rewrite fresh_d. unfold rfun. destruct (h_dlam (w_heap u) o x key); reflexivity.
Qed.
#[export] Hint Resolve pure_dlam : pureU.

(** ** Simulation of the methods *)
Create HintDb sim.
Lemma sim_get_obj J o : simM J (get_obj o). Proof. apply sim_gets. Qed.
Lemma sim_m_ang J o a : simM J (m_ang o a). Proof. apply sim_gets. Qed.
Lemma sim_nmax J o : simM J (m_nmax o). Proof. apply sim_gets. Qed.
Lemma sim_get_I0 J o : simM J (get_I0 o). Proof. apply sim_gets. Qed.
#[export] Hint Resolve sim_ret sim_fail sim_lift sim_gets sim_cache_clear
  sim_get_obj sim_m_ang sim_nmax sim_get_I0 : sim.

Ltac simgo :=
  repeat first
    [ progress (intros)
    | solve [auto with sim]
    | apply sim_bind
    | apply sim_catch
    | match goal with
      | |- simM _ (let '(_, _) := ?p in _) => destruct p
      | |- simM _ (match ?x with _ => _ end) => destruct x
      | |- simM _ (if ?x then _ else _) => destruct x
      end ].

Lemma sim_mu_0 J o : simM J (mu_0 o).
Proof. unfold mu_0. apply sim_bind; [|intros; apply sim_lift]. apply sim_cached; [simgo| |discriminate]; apply body_mu_0. Qed.
Lemma sim_mu_ex J o : simM J (mu_ex o).
Proof. unfold mu_ex. apply sim_bind; [|intros; apply sim_lift]. apply sim_cached; [simgo| |discriminate]; apply body_mu_ex. Qed.
#[export] Hint Resolve sim_mu_0 sim_mu_ex : sim.
Lemma sim_mu_0_x J o : simM J (mu_0_x o).
Proof. unfold mu_0_x. apply sim_bind; [|intros; apply sim_lift]. apply sim_cached; [simgo| |discriminate]; apply body_mu_0_x. Qed.
Lemma sim_mu_ex_x J o : simM J (mu_ex_x o).
Proof. unfold mu_ex_x. apply sim_bind; [|intros; apply sim_lift]. apply sim_cached; [simgo| |discriminate]; apply body_mu_ex_x. Qed.
Lemma sim_symbs J o p : simM J (get_param_symbs o p).
Proof. unfold get_param_symbs. apply sim_bind; [|intros; apply sim_lift]. apply sim_cached; [simgo| |discriminate]; apply body_symbs. Qed.
#[export] Hint Resolve sim_mu_0_x sim_mu_ex_x sim_symbs : sim.
Lemma sim_funcs J o p : simM J (get_param_funcs o p).
Proof.
  unfold get_param_funcs. apply sim_bind; [|intros; apply sim_lift].
  apply sim_cached; [simgo| |discriminate]; apply body_funcs.
Qed.
#[export] Hint Resolve sim_funcs : sim.
Lemma sim_eval_param J o p : simM J (eval_param o p).
Proof. unfold eval_param. simgo. Qed.
#[export] Hint Resolve sim_eval_param : sim.
Lemma sim_param_val J o p : simM J (param_val o p).
Proof. unfold param_val. simgo. Qed.
Lemma sim_lambda J sid keys : simM J (lambda_func sid keys).
Proof.
  unfold lambda_func. apply sim_bind; [|simgo].
  apply sim_cached; [simgo| |discriminate]; apply body_lambda.
Qed.
#[export] Hint Resolve sim_param_val sim_lambda : sim.
Lemma sim_scat_calc J sid a b c d kw : simM J (scat_calc sid a b c d kw).
Proof. unfold scat_calc. simgo. Qed.
#[export] Hint Resolve sim_scat_calc : sim.
Lemma sim_obj_scat_calc J o x : simM J (obj_scat_calc o x).
Proof. unfold obj_scat_calc. simgo. Qed.
#[export] Hint Resolve sim_obj_scat_calc : sim.
Lemma sim_surface J o : simM J (m_surface o). Proof. unfold m_surface. simgo. Qed.
Lemma sim_volume J o : simM J (m_volume o). Proof. unfold m_volume. simgo. Qed.
Lemma sim_convert J o v : simM J (m_convert o v). Proof. unfold m_convert. simgo. Qed.
Lemma sim_all_param_symbs J o : simM J (all_param_symbs o). Proof. unfold all_param_symbs. simgo. Qed.
#[export] Hint Resolve sim_surface sim_volume sim_convert sim_all_param_symbs : sim.

Lemma sim_lambdify_diff J o d : simM J (lambdify_diff o d). Proof. unfold lambdify_diff. simgo. Qed.
#[export] Hint Resolve sim_lambdify_diff : sim.
Lemma sim_dlam J o x key : In o J -> simM J (d_dummy_lambda o x key).
Proof.
  intros HJ. unfold d_dummy_lambda. fold (dname x). fold (dlam_body o x key).
  apply sim_bind; [|simgo]. apply sim_cached; [unfold dlam_body; simgo|apply body_dlam|].
  intros _. exact HJ.
Qed.
Lemma sim_call_full J o c : simM J (call_full o c). Proof. unfold call_full. simgo. Qed.
Lemma sim_dparam J o p k : simM J (dparam_ddummy_lambda o p k). Proof. unfold dparam_ddummy_lambda. simgo. Qed.
#[export] Hint Resolve sim_dlam sim_call_full sim_dparam : sim.
Lemma sim_dvolume_dtau J o : simM J (dvolume_dtau o). Proof. unfold dvolume_dtau. simgo. Qed.
Lemma sim_dvolume_domega J o : simM J (dvolume_domega o). Proof. unfold dvolume_domega. simgo. Qed.
Lemma sim_dvolume_dbsf J o : simM J (dvolume_dbsf o). Proof. unfold dvolume_dbsf. simgo. Qed.
Lemma sim_dvolume_dN J o : simM J (dvolume_dNormBRDF o). Proof. unfold dvolume_dNormBRDF. simgo. Qed.
Lemma sim_dsurface_dtau J o : simM J (dsurface_dtau o). Proof. unfold dsurface_dtau. simgo. Qed.
Lemma sim_dsurface_domega J o : simM J (dsurface_domega o). Proof. unfold dsurface_domega. simgo. Qed.
Lemma sim_dsurface_dbsf J o : simM J (dsurface_dbsf o). Proof. unfold dsurface_dbsf. simgo. Qed.
Lemma sim_dsurface_dN J o : simM J (dsurface_dNormBRDF o). Proof. unfold dsurface_dNormBRDF. simgo. Qed.
#[export] Hint Resolve sim_dvolume_dtau sim_dvolume_domega sim_dvolume_dbsf sim_dvolume_dN
  sim_dsurface_dtau sim_dsurface_domega sim_dsurface_dbsf sim_dsurface_dN : sim.
Lemma sim_d_volume J o k : In o J -> simM J (d_volume_ddummy o k).
Proof. intros HJ. unfold d_volume_ddummy. simgo. Qed.
Lemma sim_d_surface J o k : In o J -> simM J (d_surface_ddummy o k).
Proof. intros HJ. unfold d_surface_ddummy. simgo. Qed.
Lemma sim_jac_norm J o : simM J (jac_norm o). Proof. unfold jac_norm. simgo. Qed.
#[export] Hint Resolve sim_d_volume sim_d_surface sim_jac_norm : sim.
(** keys for which jacobian() uses a closed formula *)
Definition std_key (k : string) : bool :=
  String.eqb k "omega" || String.eqb k "tau" || String.eqb k "NormBRDF" || String.eqb k "bsf".
Lemma sim_jac_entry J o n k : (std_key k = false -> In o J) -> simM J (jac_entry o n k).
Proof.
  intros HJ. unfold jac_entry. unfold std_key in HJ.
  apply sim_bind; [simgo|intros r].
  apply sim_bind; [|simgo].
  destruct (String.eqb k "omega"); [simgo|].
  destruct (String.eqb k "tau"); [simgo|].
  destruct (String.eqb k "NormBRDF"); [simgo|].
  destruct (String.eqb k "bsf"); [simgo|].
  specialize (HJ eq_refl). simgo.
Qed.
Lemma sim_jac_entries J o n ks : (forallb std_key ks = false -> In o J) -> simM J (jac_entries o n ks).
Proof.
  induction ks as [|k ks IH]; intros HJ; cbn [jac_entries]; [simgo|].
  apply sim_bind.
  - apply sim_jac_entry. intros Hk. apply HJ. cbn [forallb]. now rewrite Hk.
  - intros j. apply sim_bind; [|simgo]. apply IH. intros Hk. apply HJ. cbn [forallb]. rewrite Hk.
    now destruct (std_key k).
Qed.
Lemma sim_jacobian J o ks f : (forallb std_key ks = false -> In o J) -> simM J (api_jacobian o ks f).
Proof.
  intros HJ. unfold api_jacobian.
  apply sim_bind; [simgo|intros n]. apply sim_bind; [now apply sim_jac_entries|simgo].
Qed.
