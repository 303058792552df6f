(** C46, C64: combining docstrings. *)
From Verif Require Export Docs.
Open Scope string_scope. Open Scope nat_scope. Open Scope list_scope.

(** ** Specification *)
Definition names (ps : list dparam) : list string := map d_name ps.
(** the parsed docstrings of the inherited objects that have one *)
Definition inherited (parse : string -> res doc) (funcs : list (option string)) (ds : list doc) : Prop :=
  Forall2 (fun t d => parse t = Ok d) (flat_map (fun f => match f with Some t => if String.eqb t "" then [] else [t] | None => [] end) funcs) ds.
(** [p] is the first description of its name in these docstrings *)
Definition first_described (ds : list doc) (p : dparam) : Prop :=
  exists l1 l2, flat_map d_params ds = l1 ++ p :: l2 /\ ~ In (d_name p) (names l1).

Lemma described_In ps n : described ps n = true <-> In n (names ps).
Proof.
  unfold described, names. rewrite existsb_exists. split.
  - intros (x & Hx & E). apply String.eqb_eq in E. subst. now apply in_map.
  - intros H. apply in_map_iff in H. destruct H as (x & <- & Hx). exists x. split; [exact Hx|apply String.eqb_refl].
Qed.

(** what is appended when the descriptions [inh] are added to [own] *)
Lemma add_params_spec inh : forall own, exists added, add_params own inh = own ++ added /\
  NoDup (names added) /\ (forall n, In n (names added) -> ~ In n (names own)) /\
  (forall n, In n (names inh) -> In n (names own) \/ In n (names added)) /\
  (forall p, In p added -> exists l1 l2, inh = l1 ++ p :: l2 /\ ~ In (d_name p) (names l1)).
Proof.
  induction inh as [|p inh IH]; intros own; cbn [add_params].
  - exists []. rewrite app_nil_r. split; [reflexivity|]. split; [constructor|]. split; [intros n []|]. split; [intros n []|intros p []].
  - destruct (described own (d_name p)) eqn:D.
    + apply described_In in D. destruct (IH own) as (added & E & A & B & C & F). exists added. split; [exact E|]. split; [exact A|]. split; [exact B|].
      split; [intros n [<-|Hn]; [now left|now apply C]|].
      intros q Hq. destruct (F q Hq) as (l1 & l2 & -> & Hl). exists (p :: l1), l2. split; [reflexivity|].
      intros [X|X]; [|contradiction]. apply (B (d_name q)); [now apply in_map|]. now rewrite <- X.
    + assert (D' : ~ In (d_name p) (names own)) by (intros X; apply described_In in X; congruence).
      destruct (IH (own ++ [p])) as (added & E & A & B & C & F). exists (p :: added). rewrite E, <- app_assoc. split; [reflexivity|].
      assert (Nm : names (own ++ [p]) = names own ++ [d_name p]) by (unfold names; apply map_app).
      split; [cbn; constructor; [|exact A]|].
      { intros X. apply (B _ X). rewrite Nm. apply in_or_app. right. now left. }
      split. { intros n [<-|Hn]; [exact D'|]. intros X. apply (B n Hn). rewrite Nm. apply in_or_app. now left. }
      split. { intros n [<-|Hn]; [right; now left|]. destruct (C n Hn) as [X|X]; [|right; now right]. rewrite Nm in X. apply in_app_or in X.
               destruct X as [X|[<-|[]]]; [now left|right; now left]. }
      intros q [<-|Hq]; [exists [], inh; split; [reflexivity|intros []]|]. destruct (F q Hq) as (l1 & l2 & -> & Hl). exists (p :: l1), l2. split; [reflexivity|].
      intros [X|X]; [|contradiction]. apply (B (d_name q)); [now apply in_map|]. rewrite Nm, X. apply in_or_app. right. now left.
Qed.
Lemma add_params_app l1 : forall own l2, add_params own (l1 ++ l2) = add_params (add_params own l1) l2.
Proof. induction l1 as [|p l1 IH]; intros own l2; [reflexivity|]. cbn [app add_params]. apply IH. Qed.

Lemma merge_params c d e : merge c d = Ok e -> d_params e = add_params (d_params c) (d_params d).
Proof.
  unfold merge. destruct (add_text (d_refs c) (d_refs d)); [cbn [rbind]|discriminate]. destruct (add_text (d_examples c) (d_examples d)); [cbn [rbind]|discriminate].
  intros H. inversion H; subst. reflexivity.
Qed.
Lemma merge_all_params parse funcs : forall c e, merge_all parse c funcs = Ok e ->
  exists ds, inherited parse funcs ds /\ d_params e = add_params (d_params c) (flat_map d_params ds).
Proof.
  unfold inherited. induction funcs as [|[t|] fs IH]; intros c e H; cbn [merge_all flat_map] in *.
  - inversion H; subst. exists []. split; [constructor|reflexivity].
  - destruct (String.eqb t ""); [now apply IH|].
    destruct (parse t) as [d|] eqn:P; [cbn [rbind] in H|discriminate]. destruct (merge c d) as [c'|] eqn:Em; [cbn [rbind] in H|discriminate].
    destruct (IH _ _ H) as (ds & F & E). exists (d :: ds). split; [constructor; [exact P|exact F]|].
    rewrite E, (merge_params _ _ _ Em). cbn [flat_map]. now rewrite add_params_app.
  - now apply IH.
Qed.

(** *** C46.  The docstring afterwards is either the previous one (nothing could be combined), or the printed form
    of a docstring whose parameter descriptions are the own ones, unchanged and in order, followed by the first
    description of every inherited name that was not described, each once. *)
Theorem C46_docstrings : forall parse render own funcs,
  append_numpy_docstring parse render own funcs = own \/
  exists d0 ds d added s,
    append_numpy_docstring parse render own funcs = Some s /\ render d = Ok s /\
    parse (match own with None => "" | Some t => t end) = Ok d0 /\ inherited parse funcs ds /\
    d_params d = d_params d0 ++ added /\
    NoDup (names added) /\
    (forall n, In n (names added) <-> In n (names (flat_map d_params ds)) /\ ~ In n (names (d_params d0))) /\
    (forall p, In p added -> first_described ds p).
Proof.
  intros parse render own funcs. unfold append_numpy_docstring. destruct (combined parse render own funcs) as [s|e] eqn:C; [right|now left].
  unfold combined in C. destruct (parse _) as [d0|] eqn:P0; [cbn [rbind] in C|discriminate]. destruct (merge_all parse d0 funcs) as [d|] eqn:Em; [cbn [rbind] in C|discriminate].
  destruct (merge_all_params _ _ _ _ Em) as (ds & F & E). destruct (add_params_spec (flat_map d_params ds) (d_params d0)) as (added & Ea & A1 & A2 & A3 & A4).
  exists d0, ds, d, added, s. split; [reflexivity|]. split; [exact C|]. split; [reflexivity|]. split; [exact F|]. split; [congruence|]. split; [exact A1|].
  split; [|intros p Hp; destruct (A4 p Hp) as (l1 & l2 & X & Y); exists l1, l2; auto].
  intros n. split.
  - intros H. split; [|now apply A2]. unfold names in H. apply in_map_iff in H. destruct H as (p & <- & Hp). destruct (A4 p Hp) as (l1 & l2 & -> & _).
    unfold names. rewrite map_app. apply in_or_app. right. now left.
  - intros [H1 H2]. destruct (A3 n H1); [contradiction|assumption].
Qed.
Print Assumptions C46_docstrings.

(** a failure at any point (parsing, combining, printing) leaves the docstring unchanged *)
Theorem C46_failure_unchanged : forall parse render own funcs e,
  combined parse render own funcs = Err e -> append_numpy_docstring parse render own funcs = own.
Proof. intros parse render own funcs e H. unfold append_numpy_docstring. now rewrite H. Qed.
Print Assumptions C46_failure_unchanged.

(** a small parser and printer: "own", "inh", "ref" name three parsed docstrings *)
Definition dp (n : string) : dparam := mk_dparam n "float" [n].
Definition plain (ps : list dparam) : doc := mk_doc ps ["text"] [] (TStr "") (TStr "") (fun _ => []).
Definition toy_parse (t : string) : res doc :=
  if String.eqb t "own" then Ok (plain [dp "tau"; dp "omega"])
  else if String.eqb t "inh" then Ok (plain [dp "omega"; dp "t"; dp "t"])
  else if String.eqb t "ref" then Ok (mk_doc [dp "t"] ["text"] [] (TLines [".. [1] A book"]) (TStr "") (fun _ => []))
  else Err ValueError.
Definition toy_render (d : doc) : res string := Ok (String.concat "," (names (d_params d))).
Example C46_nonvacuous :
  append_numpy_docstring toy_parse toy_render (Some "own") [None; Some "inh"; Some ""] = Some "tau,omega,t" /\
  append_numpy_docstring toy_parse toy_render (Some "own") [Some "inh"; Some "broken"] = Some "own".
Proof. split; reflexivity. Qed.

(** *** C64.  "Inherited references and examples are combined with the own ones."  Refuted: numpydoc represents a
    present section by the list of its lines, and such an inherited docstring makes the whole combination fail. *)
Lemma merge_all_text parse funcs : forall c t d, In (Some t) funcs -> t <> "" -> parse t = Ok d ->
  (exists x l, d_refs d = TLines (x :: l)) \/ (exists x l, d_examples d = TLines (x :: l)) -> exists e, merge_all parse c funcs = Err e.
Proof.
  induction funcs as [|f fs IH]; intros c t d H Nt P X; [destruct H|]. destruct f as [u|].
  - cbn [merge_all]. destruct (String.eqb_spec u "") as [->|Nu].
    + destruct H as [H|H]; [congruence|]. eapply IH; eassumption.
    + destruct (parse u) as [du|e] eqn:Pu; [cbn [rbind]|eexists; reflexivity].
      destruct (merge c du) as [c'|e] eqn:Em; [cbn [rbind]|eexists; reflexivity].
      destruct H as [H|H]; [exfalso|eapply IH; eassumption]. inversion H; subst u. rewrite P in Pu. inversion Pu; subst du.
      unfold merge in Em. destruct X as [(x & l & E)|(x & l & E)].
      * rewrite E in Em. cbn in Em. discriminate.
      * destruct (add_text (d_refs c) (d_refs d)); [cbn [rbind] in Em|discriminate]. rewrite E in Em. cbn in Em. discriminate.
  - cbn [merge_all]. destruct H as [H|H]; [discriminate|]. eapply IH; eassumption.
Qed.
Theorem C64_sections_lost : forall parse render own funcs t d,
  In (Some t) funcs -> t <> "" -> parse t = Ok d ->
  (exists x l, d_refs d = TLines (x :: l)) \/ (exists x l, d_examples d = TLines (x :: l)) ->
  append_numpy_docstring parse render own funcs = own.
Proof.
  intros parse render own funcs t d H Nt P X. unfold append_numpy_docstring, combined. destruct (parse (match own with None => "" | Some t => t end)) as [d0|]; [cbn [rbind]|reflexivity].
  destruct (merge_all_text parse funcs d0 t d H Nt P X) as (e & ->). reflexivity.
Qed.
Print Assumptions C64_sections_lost.
(** intended: the inherited reference lines appear in the combined docstring *)
Definition C64_intended : Prop := forall parse render own funcs s t d l x,
  parse own = Ok s -> (forall c, exists z, render c = Ok z) -> In (Some t) funcs -> t <> "" -> (forall u, In (Some u) funcs -> exists y, parse u = Ok y) ->
  parse t = Ok d -> d_refs d = TLines l -> In x l ->
  exists c l', append_numpy_docstring parse render (Some own) funcs = match render c with Ok z => Some z | Err _ => None end /\ d_refs c = TLines l' /\ In x l'.
Theorem C64_refuted : ~ C64_intended.
Proof.
  intros H. destruct (H toy_parse (fun d => Ok "combined") "own" [Some "ref"] (plain [dp "tau"; dp "omega"]) "ref"
      (mk_doc [dp "t"] ["text"] [] (TLines [".. [1] A book"]) (TStr "") (fun _ => [])) [".. [1] A book"] ".. [1] A book") as (c & l' & E & _); try reflexivity.
  - intros c. eexists. reflexivity.
  - now left.
  - discriminate.
  - intros u [X|[]]. inversion X; subst. eexists. reflexivity.
  - now left.
  - cbn in E. discriminate.
Qed.
Print Assumptions C64_refuted.

(** inherited docstrings without these sections are combined *)
Definition no_text (d : doc) : Prop := d_refs d = TStr "" /\ d_examples d = TStr "".
Theorem C64_without_sections_partial : forall parse render own funcs d0 ds,
  parse (match own with None => "" | Some t => t end) = Ok d0 -> (forall c, exists z, render c = Ok z) ->
  inherited parse funcs ds -> Forall no_text ds ->
  exists d, d_refs d = d_refs d0 /\ d_examples d = d_examples d0 /\
    d_params d = add_params (d_params d0) (flat_map d_params ds) /\
    append_numpy_docstring parse render own funcs = match render d with Ok z => Some z | Err _ => None end.
Proof.
  intros parse render own funcs d0 ds P R F T.
  assert (X : forall c, exists d, merge_all parse c funcs = Ok d /\ d_refs d = d_refs c /\ d_examples d = d_examples c /\ d_params d = add_params (d_params c) (flat_map d_params ds)).
  { clear P. revert ds F T. unfold inherited. induction funcs as [|[t|] fs IH]; cbn [merge_all flat_map]; intros ds F T c.
    - inversion F; subst. exists c. repeat split.
    - destruct (String.eqb t ""); [now apply IH|]. inversion F as [|? d ? ds' Pt F']; subst. inversion T as [|? ? [T1 T2] T']; subst.
      rewrite Pt. cbn [rbind]. unfold merge. rewrite T1, T2. cbn [add_text d_nonempty rbind].
      destruct (IH _ F' T' (mk_doc (add_params (d_params c) (d_params d)) (add_summary (d_summary c) (d_summary d)) (add_summary (d_extended c) (d_extended d)) (d_refs c) (d_examples c) (add_lists (d_lists c) (d_lists d)))) as (e & E1 & E2 & E3 & E4).
      exists e. split; [exact E1|]. split; [exact E2|]. split; [exact E3|]. cbn [d_params] in E4. rewrite E4. cbn [flat_map]. now rewrite add_params_app.
    - now apply IH. }
  destruct (X d0) as (d & E1 & E2 & E3 & E4). exists d. split; [exact E2|]. split; [exact E3|]. split; [exact E4|].
  unfold append_numpy_docstring, combined. rewrite P. cbn [rbind]. rewrite E1. cbn [rbind]. destruct (R d) as (z & ->). reflexivity.
Qed.
Print Assumptions C64_without_sections_partial.
Example C64_without_sections_nonvacuous :
  inherited toy_parse [None; Some "inh"] [plain [dp "omega"; dp "t"; dp "t"]] /\ Forall no_text [plain [dp "omega"; dp "t"; dp "t"]].
Proof. split; [repeat constructor|]. repeat constructor. Qed.
Example C64_sections_lost_nonvacuous : exists d x l, toy_parse "ref" = Ok d /\ d_refs d = TLines (x :: l) /\
  append_numpy_docstring toy_parse toy_render (Some "own") [Some "inh"; Some "ref"] = Some "own".
Proof. do 3 eexists. split; [reflexivity|]. split; reflexivity. Qed.
