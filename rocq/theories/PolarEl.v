(** What polarplot draws, point by point. *)
From Coquelicot Require Import Coquelicot.
From Coq Require Import Reals Lia Lra List.
From Verif Require Import SpecScat SpecExp SpecInt.
From Verif Require Import Progress CallEq Memo Interact2 Hem Polar.
From Verif Require Export HemEl.
Open Scope string_scope.
Open Scope list_scope.
Open Scope R_scope.

(** ** One compiled expression in four directions and named parameters *)
Definition line_env (pre : list string) (f : string -> R) (ti x : R) (v : string) : R :=
  match pre with
  | A :: B :: C :: D :: nil => if String.eqb v A then ti else if String.eqb v B then x else if String.eqb v C then 0 else if String.eqb v D then 0 else f v
  | _ => f v
  end.
(** [kw] gives numbers, [f] are their values *)
Definition scalars (kw : dict (nd xr)) (f : string -> R) : Prop := forall k a, In (k, a) kw -> shp a = nil /\ get a nil = Fin (f k).

Section Line.
  Context (A B C D : string) (kw : dict (nd xr)) (f : string -> R) (l : list R) (be : backend) (e : expr).
  Let pre := (A :: B :: C :: D :: nil).
  Hypothesis (N : NoDup (pre ++ dkeys kw)) (K : scalars kw f) (I : incl (syms e) (pre ++ dkeys kw)).
  Let k : compiled := mk_comp be (pre ++ dkeys kw) (e :: nil).
  Let args ti := (num ti :: row_of l :: num 0 :: num 0 :: nil).
  Lemma line_env_of ti vals j v : bound (pre ++ dkeys kw) (args ti) kw vals -> In v (pre ++ dkeys kw) ->
    env_of (pre ++ dkeys kw) vals (j :: nil) v = Fin (line_env pre f ti (nth (if (length l =? 1)%nat then 0 else j)%nat l 0) v).
  Proof.
    intros (vs & -> & _ & F) Hv. unfold args in *. cbn [length] in F. unfold pre in *. cbn [skipn app] in F. cbn [app env_of line_env].
    destruct (String.eqb v A) eqn:E1; [reflexivity|].
    destruct (String.eqb v B) eqn:E2.
    { unfold bget, row_of. cbn [shp get proj hd tl]. destruct (length l =? 1)%nat; reflexivity. }
    destruct (String.eqb v C) eqn:E3; [reflexivity|]. destruct (String.eqb v D) eqn:E4; [reflexivity|].
    assert (Hk : In v (dkeys kw)).
    { apply String.eqb_neq in E1, E2, E3, E4. cbn [app In] in Hv. repeat (destruct Hv as [Hv|Hv]; [congruence|]). exact Hv. }
    destruct (env_of_kw _ _ _ v (j :: nil) F Hk) as (a & Ea & ->).
    assert (Ia : In (v, a) kw) by (clear - Ea; induction kw as [|[x b] d IH]; [discriminate|]; cbn [dget] in Ea; destruct (String.eqb_spec v x); [injection Ea as <-; subst; left; reflexivity|right; auto]).
    destruct (K v a Ia) as [Sa Ga]. unfold bget. rewrite Sa. exact Ga.
  Qed.
  Lemma line_ble ti : Forall (fun a => ble (shp a) (length l :: nil)) (args ti ++ dvals kw).
  Proof.
    unfold args. cbn [app]. constructor; [apply ble_nil|]. constructor; [apply ble_refl|]. constructor; [apply ble_nil|]. constructor; [apply ble_nil|].
    apply Forall_forall. intros a Ha. unfold dvals in Ha. apply in_map_iff in Ha. destruct Ha as ([y b] & <- & Hb). cbn [snd]. destruct (K y b Hb) as [-> _]. apply ble_nil.
  Qed.
  Lemma keys_nodup : NoDup (dkeys kw). Proof. now apply nd_right in N. Qed.
  Lemma line_call ti : (forall j, (j < length l)%nat -> wd (line_env pre f ti (nth j l 0)) e) ->
    exists b, call1 k (args ti) kw = Ok b /\ ble (shp b) (length l :: nil) /\
      forall j, (j < length l)%nat -> bget b (j :: nil) = Fin (evalR (line_env pre f ti (nth j l 0)) e).
  Proof.
    intros W. destruct (call_total (length l :: nil) k pre (args ti) kw eq_refl eq_refl keys_nodup) as (bs & E & L & F).
    - discriminate.
    - unfold k, all_syms. cbn [c_exprs c_vars flat_map]. rewrite app_nil_r. exact I.
    - apply line_ble.
    - destruct bs as [|b [|]]; try discriminate L. exists b.
      assert (C1 : call1 k (args ti) kw = Ok b) by (unfold call1; rewrite E; reflexivity).
      split; [exact C1|]. split; [now inversion F|]. intros j Hj.
      destruct (call1_spec k _ _ e _ eq_refl C1) as (vals & Bd & _ & V). rewrite V. apply evalX_Fin; [|now apply W].
      intros v Hv. apply I in Hv. cbn [c_vars k]. rewrite (line_env_of _ _ _ _ Bd Hv). f_equal. f_equal. f_equal.
      destruct (Nat.eqb_spec (length l) 1); [lia|reflexivity].
  Qed.
  (** the line has an axis under symengine, or if the expression mentions the second angle *)
  Lemma line_axis ti b : be = Symengine \/ In B (syms e) -> call1 k (args ti) kw = Ok b -> ble (shp b) (length l :: nil) -> shp b = length l :: nil.
  Proof.
    intros Ax H Sb. assert (X : ble (length l :: nil) (shp b)).
    { unfold call1, call, k in H. cbn [c_be c_vars c_exprs] in H. destruct be.
      - destruct Ax as [Ax|Ax]; [discriminate Ax|]. rewrite (bind_sympy_full pre) in H by (try reflexivity; apply keys_nodup). cbn [rbind] in H.
        destruct (subset_b _ _); [|discriminate]. cbn [rmap] in H. unfold eval_sympy in H at 1.
        destruct (bc_shapes _) as [r|] eqn:Er; [|discriminate]. cbn [rbind] in H. injection H as <-. cbn [shp].
        apply bc_shapes_in in Er. rewrite Forall_forall in Er. apply (Er (length l :: nil)). apply in_map_iff. exists B. split; [|exact Ax].
        unfold shape_of_sym, pre, args. cbn [app combine find fst]. inversion N as [|? ? NA N']; subst.
        destruct (String.eqb_spec B A) as [E|_]; [exfalso; apply NA; cbn; auto|]. rewrite String.eqb_refl. reflexivity.
      - unfold pre in H at 1. cbn [app] in H. cbv iota in H. change (A :: B :: C :: D :: dkeys kw) with (pre ++ dkeys kw) in H.
        rewrite (bind_symengine_full pre) in H by (try reflexivity; apply keys_nodup). unfold broadcast_arrays in H.
        destruct (bc_shapes _) as [r|] eqn:Er; [|discriminate]. cbn [rbind map] in H. injection H as <-. unfold eval_symengine, args. cbn [shp app map].
        unfold broadcast_to. cbn [shp]. apply bc_shapes_in in Er. rewrite Forall_forall in Er. apply (Er (length l :: nil)). cbn [args app map In]. auto. }
    destruct (shp b) as [|d r]; [apply ble_nil_r in X; discriminate|]. apply ble_cons in X, Sb. destruct X as [X X2]. destruct Sb as [Y Y2].
    apply ble_nil_r in Y2. subst r. f_equal. lia.
  Qed.
  Lemma line_flat ti b : be = Sympy -> ~ In B (syms e) -> call1 k (args ti) kw = Ok b -> shp b = nil.
  Proof.
    intros -> Nb H. unfold call1, call, k in H. cbn [c_be c_vars c_exprs] in H. rewrite (bind_sympy_full pre) in H by (try reflexivity; apply keys_nodup). cbn [rbind] in H.
    destruct (subset_b _ _); [|discriminate]. cbn [rmap] in H. unfold eval_sympy in H at 1.
    destruct (bc_shapes _) as [r|] eqn:Er; [|discriminate]. cbn [rbind] in H. injection H as <-. cbn [shp].
    apply ble_nil_r. apply (bc_shapes_least _ _ nil Er). apply Forall_forall. intros z Hz. apply in_map_iff in Hz. destruct Hz as (v & <- & Hv).
    assert (v <> B) by (intros ->; contradiction). unfold shape_of_sym, args, pre. cbn [app combine find fst].
    destruct (String.eqb v A); [apply ble_nil|]. destruct (String.eqb_spec v B); [contradiction|]. destruct (String.eqb v C); [apply ble_nil|]. destruct (String.eqb v D); [apply ble_nil|].
    clear - K. unfold scalars in K. unfold dkeys, dvals. induction kw as [|[x a] d IH]; [apply ble_nil|]. cbn [map combine find fst snd].
    destruct (String.eqb v x); [destruct (K x a (or_introl eq_refl)) as [-> _]; apply ble_nil|]. apply IH. intros y c Hc. apply (K y c). now right.
  Qed.
End Line.
Lemma squeeze_id a n : shp a = n :: nil -> n <> 1%nat -> shp (squeeze a) = n :: nil /\ forall j, get (squeeze a) (j :: nil) = get a (j :: nil).
Proof. intros S H. unfold squeeze. rewrite S. cbn [filter shp get unsqueeze hd tl]. apply Nat.eqb_neq in H. rewrite H. auto. Qed.
Lemma squeeze_nil a : shp a = nil -> shp (squeeze a) = nil.
Proof. intros S. unfold squeeze. now rewrite S. Qed.
