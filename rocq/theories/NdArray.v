(** numpy arrays: a shape and an index function, with numpy's broadcasting.

    Shapes and indices are stored REVERSED (last axis first): numpy aligns shapes at the last
    axis, so broadcasting is a plain left-to-right zip on reversed shapes, and numpy's axis 0
    is the last entry. *)
From Verif Require Export Xr.
Open Scope nat_scope.

Record nd (A : Type) : Type := mk_nd { shp : list nat; get : list nat -> A }.
Arguments mk_nd {A} shp get.
Arguments shp {A} n.
Arguments get {A} n idx.

(** numpy broadcasting of two dimensions / shapes (None = ValueError). *)
Definition bc_dim (d e : nat) : option nat :=
  if d =? e then Some d else if d =? 1 then Some e else if e =? 1 then Some d else None.

Fixpoint bc_shape (s t : list nat) : option (list nat) :=
  match s, t with
  | [], _ => Some t
  | _, [] => Some s
  | d :: s', e :: t' =>
      match bc_dim d e, bc_shape s' t' with
      | Some x, Some r => Some (x :: r)
      | _, _ => None
      end
  end.

Definition bc_shapes (l : list (list nat)) : option (list nat) :=
  fold_left (fun acc s => match acc with Some a => bc_shape a s | None => None end) l (Some []).

(** position in an array of shape [s] that is read for position [idx] of the result *)
Fixpoint proj (s idx : list nat) : list nat :=
  match s with
  | [] => []
  | d :: s' => (if d =? 1 then 0 else hd 0 idx) :: proj s' (tl idx)
  end.

Definition bget {A} (a : nd A) (idx : list nat) : A := get a (proj (shp a) idx).

Definition scalar {A} (x : A) : nd A := mk_nd [] (fun _ => x).

(** np.atleast_1d *)
Definition atleast_1d {A} (a : nd A) : nd A :=
  match shp a with [] => mk_nd [1] (fun _ => get a []) | _ => a end.

Definition map1 {A B} (f : A -> B) (a : nd A) : nd B := mk_nd (shp a) (fun i => f (get a i)).

Definition map2 {A B C} (f : A -> B -> C) (a : nd A) (b : nd B) : res (nd C) :=
  match bc_shape (shp a) (shp b) with
  | Some s => Ok (mk_nd s (fun i => f (bget a i) (bget b i)))
  | None => Err ValueError
  end.

(** np.broadcast_to *)
Definition broadcast_to {A} (s : list nat) (a : nd A) : nd A := mk_nd s (bget a).

(** np.broadcast_arrays *)
Definition broadcast_arrays {A} (l : list (nd A)) : res (list (nd A)) :=
  match bc_shapes (map shp l) with
  | Some s => Ok (map (broadcast_to s) l)
  | None => Err ValueError
  end.

Definition list_nat_eqb (a b : list nat) : bool := if list_eq_dec Nat.eq_dec a b then true else false.

(** np.stack / np.array of a list of equally shaped arrays: a new axis 0.
    (np.array([]) has shape (0,).) *)
Definition stack {A} (l : list (nd A)) : res (nd A) :=
  match l with
  | [] => Err ValueError
  | a :: l' =>
      if forallb (fun b => list_nat_eqb (shp b) (shp a)) l' then
        Ok (mk_nd (shp a ++ [length l])
             (fun i => get (nth (nth (length (shp a)) i 0) l a) (firstn (length (shp a)) i)))
      else Err ValueError
  end.

(** np.sum(a, axis=0) *)
Definition sum_axis0 (a : nd xr) : nd xr :=
  let s := removelast (shp a) in
  let n := last (shp a) 0 in
  mk_nd s (fun i => fold_right (fun k acc => xadd (get a (firstn (length s) i ++ [k])) acc)
                               (Fin 0%R) (seq 0 n)).

(** all indices of a shape (reversed indices) *)
Fixpoint all_idx (s : list nat) : list (list nat) :=
  match s with
  | [] => [[]]
  | d :: s' => flat_map (fun r => map (fun k => k :: r) (seq 0 d)) (all_idx s')
  end.

Definition nd_any (a : nd bool) : bool := existsb (get a) (all_idx (shp a)).
Definition nd_all (a : nd bool) : bool := forallb (get a) (all_idx (shp a)).

(** [idx] is a valid (reversed) index of shape [s] *)
Fixpoint valid_idx (s idx : list nat) : Prop :=
  match s, idx with
  | [], [] => True
  | d :: s', i :: idx' => i < d /\ valid_idx s' idx'
  | _, _ => False
  end.

(** lifted numpy ufuncs *)
Definition nadd := map2 xadd.
Definition nsub := map2 xsub.
Definition nmul := map2 xmul.
Definition ndiv := map2 xdiv.
Definition nneg := map1 xopp.
Definition nexp := map1 xexp.
Definition nlog := map1 xlog.
Definition nlog10 := map1 xlog10.
Definition ncos := map1 xcos.
Definition nexpi := map1 xexpi.
Definition nexpn (m : nat) := map1 (xexpn m).
Definition npow (a : nd xr) (n : nat) := map1 (fun x => xpow x n) a.
Definition num (r : R) : nd xr := scalar (Fin r).

(** ** Facts *)

Lemma bc_dim_1 d e x : bc_dim d e = Some x -> x = 1 -> d = 1 /\ e = 1.
Proof.
  unfold bc_dim. intros H ->.
  destruct (Nat.eqb_spec d e); [inversion H; subst; auto|].
  destruct (Nat.eqb_spec d 1); [inversion H; subst; auto|].
  destruct (Nat.eqb_spec e 1); inversion H; subst; auto.
Qed.

Lemma bc_dim_l d e x : bc_dim d e = Some x -> d = 1 \/ d = x.
Proof.
  unfold bc_dim. intros H.
  destruct (Nat.eqb_spec d e); [inversion H; auto|].
  destruct (Nat.eqb_spec d 1); [auto|].
  destruct (Nat.eqb_spec e 1); inversion H; subst; auto.
Qed.

Lemma bc_dim_comm d e : bc_dim d e = bc_dim e d.
Proof.
  unfold bc_dim. rewrite (Nat.eqb_sym e d).
  destruct (Nat.eqb_spec d e); [now subst|].
  destruct (Nat.eqb_spec d 1), (Nat.eqb_spec e 1); subst; congruence.
Qed.

Lemma bc_shape_comm s t : bc_shape s t = bc_shape t s.
Proof.
  revert t. induction s as [|d s IH]; intros [|e t]; simpl; auto.
  rewrite bc_dim_comm, IH. reflexivity.
Qed.

Lemma bc_shape_refl s : bc_shape s s = Some s.
Proof.
  induction s as [|d s IH]; simpl; [reflexivity|].
  unfold bc_dim. now rewrite Nat.eqb_refl, IH.
Qed.

Lemma bc_shape_nil_r s : bc_shape s [] = Some s.
Proof. destruct s; reflexivity. Qed.

Lemma proj_length s idx : length (proj s idx) = length s.
Proof. revert idx; induction s as [|d s IH]; intros idx; simpl; auto. Qed.

Lemma proj_proj_l s t r idx : bc_shape s t = Some r -> proj s (proj r idx) = proj s idx.
Proof.
  revert t r idx. induction s as [|d s IH]; intros t r idx H; simpl; [reflexivity|].
  destruct t as [|e t]; simpl in H.
  - inversion H; subst; simpl. f_equal.
    + destruct (d =? 1); reflexivity.
    + destruct s as [|d' s']; [reflexivity|].
      apply (IH [] (d' :: s')). reflexivity.
  - destruct (bc_dim d e) as [x|] eqn:Ed; [|discriminate].
    destruct (bc_shape s t) as [r'|] eqn:Es; [|discriminate].
    inversion H; subst; simpl. f_equal.
    + destruct (Nat.eqb_spec d 1); [reflexivity|].
      destruct (Nat.eqb_spec x 1) as [->|]; [|reflexivity].
      destruct (bc_dim_1 _ _ _ Ed eq_refl); contradiction.
    + eapply IH; eassumption.
Qed.

Lemma proj_proj_r s t r idx : bc_shape s t = Some r -> proj t (proj r idx) = proj t idx.
Proof. rewrite bc_shape_comm. apply proj_proj_l. Qed.

Lemma proj_self s idx : proj s (proj s idx) = proj s idx.
Proof. eapply proj_proj_l. apply bc_shape_refl. Qed.

Lemma bget_map1 {A B} (f : A -> B) a idx : bget (map1 f a) idx = f (bget a idx).
Proof. reflexivity. Qed.

Lemma bget_map2 {A B C} (f : A -> B -> C) a b c idx :
  map2 f a b = Ok c -> bget c idx = f (bget a idx) (bget b idx).
Proof.
  unfold map2. destruct (bc_shape (shp a) (shp b)) as [s|] eqn:E; [|discriminate].
  intros H; inversion H; subst. unfold bget; simpl.
  now rewrite (proj_proj_l _ _ _ _ E), (proj_proj_r _ _ _ _ E).
Qed.

Lemma shp_map2 {A B C} (f : A -> B -> C) a b c :
  map2 f a b = Ok c -> bc_shape (shp a) (shp b) = Some (shp c).
Proof.
  unfold map2. destruct (bc_shape (shp a) (shp b)) as [s|]; [|discriminate].
  intros H; inversion H; reflexivity.
Qed.

Lemma bget_scalar {A} (x : A) idx : bget (scalar x) idx = x.
Proof. reflexivity. Qed.

Lemma bget_atleast_1d {A} (a : nd A) idx : bget (atleast_1d a) idx = bget a idx.
Proof.
  unfold atleast_1d, bget. destruct (shp a) as [|d s] eqn:E; simpl; [reflexivity|].
  now rewrite E.
Qed.

Lemma proj_valid s idx : valid_idx s idx -> proj s idx = idx.
Proof.
  revert idx. induction s as [|d s IH]; intros [|i idx]; simpl; try tauto.
  intros [Hi Hv]. rewrite IH by assumption. f_equal.
  destruct (Nat.eqb_spec d 1); [subst; lia|reflexivity].
Qed.

Lemma bget_valid {A} (a : nd A) idx : valid_idx (shp a) idx -> bget a idx = get a idx.
Proof. intros H. unfold bget. now rewrite proj_valid. Qed.

Lemma all_idx_valid s idx : In idx (all_idx s) <-> valid_idx s idx.
Proof.
  revert idx. induction s as [|d s IH]; intros idx; simpl.
  - destruct idx; simpl; intuition congruence.
  - rewrite in_flat_map. split.
    + intros [r [Hr Hin]]. apply in_map_iff in Hin. destruct Hin as [k [<- Hk]].
      apply in_seq in Hk. split; [lia|]. now apply IH.
    + destruct idx as [|i idx]; [intros []|]. intros [Hi Hv].
      exists idx. split; [now apply IH|]. apply in_map_iff. exists i.
      split; [reflexivity|]. apply in_seq. lia.
Qed.

Lemma valid_idx_length s idx : valid_idx s idx -> length idx = length s.
Proof.
  revert idx. induction s as [|d s IH]; intros [|i idx]; simpl; try tauto.
  intros [_ H]. f_equal. now apply IH.
Qed.
