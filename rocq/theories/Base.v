(** Python-level plumbing shared by the whole model: exceptions as values,
    the result monad, strings and association lists (Python dicts). *)
From Coq Require Export String.
From Coq Require Export List Arith ZArith QArith Bool Lia.
From Coq Require Import Ascii.
Export ListNotations.
Close Scope Q_scope.
Open Scope nat_scope.

(** Exceptions that the modelled code raises (or lets escape from a library).
    [MissingParams names] is the TypeError of src/rt1_model/_calc.py:579-581 and
    :789-792 ("... parameter specification for {symbs}"). *)
Inductive exn : Type :=
| AssertionError
| TypeError
| MissingParams (names : list string)
| AttributeError
| NameError
| KeyError
| IndexError
| ValueError
| NotImplementedError
| RuntimeError
| ImportError
| SyntaxError
| Unmodelled.   (** behaviour of a third-party library we do not model *)

Inductive res (A : Type) : Type :=
| Ok (a : A)
| Err (e : exn).
Arguments Ok {A} a.
Arguments Err {A} e.

Definition rbind {A B} (m : res A) (f : A -> res B) : res B :=
  match m with Ok a => f a | Err e => Err e end.
Notation "'let*' x ':=' m 'in' k" := (rbind m (fun x => k))
  (at level 200, x pattern, m at level 100, k at level 200, right associativity).

Definition is_ok {A} (r : res A) : bool := match r with Ok _ => true | Err _ => false end.

Fixpoint rmap {A B} (f : A -> res B) (l : list A) : res (list B) :=
  match l with
  | [] => Ok []
  | x :: l' => let* y := f x in let* ys := rmap f l' in Ok (y :: ys)
  end.

Definition mem (s : string) (l : list string) : bool := existsb (String.eqb s) l.

(** Python dict with insertion order. *)
Section Dict.
  Context {A : Type}.
  Definition dict := list (string * A).
  Fixpoint dget (d : dict) (k : string) : option A :=
    match d with
    | [] => None
    | (k', v) :: d' => if String.eqb k k' then Some v else dget d' k
    end.
  (** [d[k] = v]: an existing key keeps its position, a new key goes to the end. *)
  Fixpoint dset (d : dict) (k : string) (v : A) : dict :=
    match d with
    | [] => [(k, v)]
    | (k', v') :: d' => if String.eqb k k' then (k', v) :: d' else (k', v') :: dset d' k v
    end.
  Definition dupdate (d : dict) (kvs : dict) : dict :=
    fold_left (fun d kv => dset d (fst kv) (snd kv)) kvs d.
  Definition dkeys (d : dict) : list string := map fst d.
  Definition dvals (d : dict) : list A := map snd d.
End Dict.
Arguments dict A : clear implicits.

(** ** Basic facts *)

Lemma mem_In s l : mem s l = true <-> In s l.
Proof.
  unfold mem. rewrite existsb_exists. split.
  - intros [x [Hx He]]. apply String.eqb_eq in He. now subst.
  - intros H. exists s. split; [exact H | apply String.eqb_refl].
Qed.

Lemma mem_not_In s l : mem s l = false <-> ~ In s l.
Proof.
  rewrite <- mem_In. destruct (mem s l); split; congruence.
Qed.

Section DictFacts.
  Context {A : Type}.
  Implicit Types d : dict A.

  Lemma dget_dset_same d k v : dget (dset d k v) k = Some v.
  Proof.
    induction d as [|[k' v'] d IH]; simpl.
    - now rewrite String.eqb_refl.
    - destruct (String.eqb k k') eqn:E; simpl; rewrite E; auto.
  Qed.

  Lemma dget_dset_other d k k' v : k <> k' -> dget (dset d k v) k' = dget d k'.
  Proof.
    intros Hne. induction d as [|[k0 v0] d IH]; simpl.
    - destruct (String.eqb_spec k' k); congruence.
    - destruct (String.eqb_spec k k0) as [->|]; simpl.
      + destruct (String.eqb_spec k' k0); congruence.
      + destruct (String.eqb k' k0); auto.
  Qed.

  Lemma dget_None_notin d k : dget d k = None <-> ~ In k (dkeys d).
  Proof.
    unfold dkeys. induction d as [|[k' v'] d IH]; simpl; [tauto|].
    destruct (String.eqb_spec k k') as [->|Hne].
    - split; [discriminate|]. intros H; exfalso; apply H; now left.
    - rewrite IH. split; intros H; [intros [E|E]; [congruence|tauto] | tauto].
  Qed.

  Lemma dget_Some_in d k v : dget d k = Some v -> In k (dkeys d).
  Proof.
    intros H. destruct (in_dec string_dec k (dkeys d)) as [|Hn]; [assumption|].
    apply dget_None_notin in Hn. congruence.
  Qed.

  Lemma dkeys_dset d k v :
    dkeys (dset d k v) = if mem k (dkeys d) then dkeys d else dkeys d ++ [k].
  Proof.
    unfold dkeys. induction d as [|[k' v'] d IH]; simpl; [reflexivity|].
    destruct (String.eqb k k'); simpl; [reflexivity|].
    rewrite IH. destruct (mem k (map fst d)); reflexivity.
  Qed.

  Lemma dkeys_dset_nodup d k v : NoDup (dkeys d) -> NoDup (dkeys (dset d k v)).
  Proof.
    intros H. rewrite dkeys_dset. destruct (mem k (dkeys d)) eqn:E; [assumption|].
    apply mem_not_In in E. revert E H. generalize (dkeys d) as l.
    induction l as [|x l IH]; simpl; intros Hn Hd.
    - constructor; [intros []|constructor].
    - inversion Hd; subst. constructor.
      + rewrite in_app_iff; simpl. intros [?|[?|[]]]; [tauto|]. subst; tauto.
      + apply IH; tauto.
  Qed.
End DictFacts.
