(** Shared vocabulary of the model: Python exceptions as values, lists as
    numpy vectors.  No graphicle code is modelled in this file. *)
From Coq Require Export String Ascii.
From Coq Require Export Arith ZArith Lia Bool List Permutation.
Export ListNotations.
Open Scope nat_scope.
Open Scope list_scope.

(** The Python exception classes that occur in the modelled code. *)
Inductive exn :=
| ValueError | TypeError | KeyError | IndexError | AttributeError
| ZeroDivisionError | AssertionError | NotImplementedError | RecursionError.

(** Result of a Python call: a returned value or a raised exception. *)
Inductive res (A : Type) : Type :=
| Ok (a : A)
| Err (e : exn).
Arguments Ok {A} a.
Arguments Err {A} e.

Definition bind {A B} (x : res A) (f : A -> res B) : res B :=
  match x with Ok a => f a | Err e => Err e end.

Definition rmap {A B} (f : A -> B) (x : res A) : res B :=
  match x with Ok a => Ok (f a) | Err e => Err e end.

Notation "x <- e1 ;; e2" := (bind e1 (fun x => e2))
  (at level 61, e1 at next level, right associativity).

(** Evaluate [f] on each element, left to right; the first exception wins. *)
Section MapM.
  Context {A B : Type} (f : A -> res B).
  Fixpoint mapM (l : list A) : res (list B) :=
    match l with
    | [] => Ok []
    | x :: r => y <- f x ;; ys <- mapM r ;; Ok (y :: ys)
    end.
End MapM.

Fixpoint foldM {A S} (f : S -> A -> res S) (l : list A) (s : S) : res S :=
  match l with
  | [] => Ok s
  | x :: r => s' <- f s x ;; foldM f r s'
  end.

Definition is_ok {A} (x : res A) : bool :=
  match x with Ok _ => true | Err _ => false end.

(** Python list / numpy vector subscripting by a position. *)
Definition get {A} (l : list A) (i : nat) : res A :=
  match nth_error l i with Some x => Ok x | None => Err IndexError end.

(** [set_nth l i x]: the list with element [i] replaced (unchanged when [i]
    is out of range; every use guards the range). *)
Fixpoint set_nth {A} (l : list A) (i : nat) (x : A) : list A :=
  match l, i with
  | [], _ => []
  | _ :: r, 0 => x :: r
  | y :: r, S i' => y :: set_nth r i' x
  end.

(** Elementwise combination of two vectors of the same length. *)
Fixpoint map2 {A B C} (f : A -> B -> C) (l : list A) (r : list B) : list C :=
  match l, r with
  | a :: l', b :: r' => f a b :: map2 f l' r'
  | _, _ => []
  end.

(** [v[mask]] for a boolean mask of the same length. *)
Fixpoint compress {A} (m : list bool) (l : list A) : list A :=
  match m, l with
  | true :: m', x :: l' => x :: compress m' l'
  | false :: m', _ :: l' => compress m' l'
  | _, _ => []
  end.

(** Number of True entries, [np.sum(mask)]. *)
Definition count_true (m : list bool) : nat := length (filter (fun b => b) m).

Fixpoint enum_from {A} (n : nat) (l : list A) : list (nat * A) :=
  match l with [] => [] | x :: r => (n, x) :: enum_from (S n) r end.
Definition enumerate {A} (l : list A) : list (nat * A) := enum_from 0 l.

(** Positions of the True entries, [np.flatnonzero]. *)
Definition positions (m : list bool) : list nat :=
  map fst (filter (fun p => snd p) (enumerate m)).

(* ------------------------------------------------------------------ *)
(** * Lemmas *)

Lemma bind_ok {A B} (x : res A) (f : A -> res B) b :
  bind x f = Ok b <-> exists a, x = Ok a /\ f a = Ok b.
Proof.
  destruct x as [a|e]; simpl; split.
  - intros H; exists a; auto.
  - intros (a' & H1 & H2); injection H1 as ->; exact H2.
  - discriminate.
  - intros (a' & H1 & _); discriminate.
Qed.

Lemma rmap_ok {A B} (f : A -> B) (x : res A) b :
  rmap f x = Ok b <-> exists a, x = Ok a /\ b = f a.
Proof.
  destruct x as [a|e]; simpl; split.
  - intros H; injection H as <-; eauto.
  - intros (a' & H1 & ->); injection H1 as ->; reflexivity.
  - discriminate.
  - intros (a' & H1 & _); discriminate.
Qed.

Lemma mapM_ok {A B} (f : A -> res B) l ys :
  mapM f l = Ok ys <-> Forall2 (fun x y => f x = Ok y) l ys.
Proof.
  revert ys; induction l as [|x r IH]; intros ys; simpl.
  - split; intros H; [injection H as <-; constructor | inversion H; reflexivity].
  - split.
    + intros H. apply bind_ok in H as (y & Hy & H).
      apply bind_ok in H as (ys' & Hys & H). injection H as <-.
      constructor; [exact Hy | apply IH; exact Hys].
    + intros H; inversion H as [|? y ? ys' Hy Hys]; subst.
      rewrite Hy; simpl. apply IH in Hys. rewrite Hys. reflexivity.
Qed.

Lemma mapM_ext {A B} (f g : A -> res B) l :
  (forall x, In x l -> f x = g x) -> mapM f l = mapM g l.
Proof.
  induction l as [|x r IH]; simpl; intros H; [reflexivity|].
  rewrite H by (left; reflexivity). rewrite IH; [reflexivity|].
  intros y Hy; apply H; right; exact Hy.
Qed.

Lemma mapM_map {A B C} (f : B -> res C) (g : A -> B) l :
  mapM f (map g l) = mapM (fun x => f (g x)) l.
Proof. induction l as [|x r IH]; simpl; [reflexivity | rewrite IH; reflexivity]. Qed.

Lemma mapM_pure {A B} (f : A -> B) l : mapM (fun x => Ok (f x)) l = Ok (map f l).
Proof. induction l as [|x r IH]; simpl; [reflexivity | rewrite IH; reflexivity]. Qed.

Lemma mapM_err {A B} (f : A -> res B) l e :
  mapM f l = Err e -> exists x, In x l /\ f x = Err e.
Proof.
  induction l as [|x r IH]; simpl; [discriminate|].
  destruct (f x) as [y|e'] eqn:Hx; simpl.
  - destruct (mapM f r) as [ys|e'']; simpl; [discriminate|].
    intros H; injection H as ->. destruct IH as (z & Hz & Hf); [reflexivity|].
    exists z; auto.
  - intros H; injection H as ->. exists x; auto.
Qed.

Lemma mapM_ok_all {A B} (f : A -> res B) l :
  (exists ys, mapM f l = Ok ys) <-> (forall x, In x l -> exists y, f x = Ok y).
Proof.
  induction l as [|x r IH]; simpl.
  - split; [intros _ x [] | intros _; exists []; reflexivity].
  - split.
    + intros (ys & H). apply bind_ok in H as (y & Hy & H).
      apply bind_ok in H as (ys' & Hys & _).
      intros z [<-|Hz]; [eauto|]. apply IH; eauto.
    + intros H. destruct (H x (or_introl eq_refl)) as (y & Hy).
      destruct (proj2 IH) as (ys & Hys); [intros z Hz; apply H; right; exact Hz|].
      exists (y :: ys). rewrite Hy; simpl. rewrite Hys. reflexivity.
Qed.

Lemma Forall2_length' {A B} (P : A -> B -> Prop) l r : Forall2 P l r -> length l = length r.
Proof. induction 1; simpl; congruence. Qed.

Lemma mapM_length {A B} (f : A -> res B) l ys : mapM f l = Ok ys -> length ys = length l.
Proof. intros H; apply mapM_ok in H. symmetry. eapply Forall2_length'; exact H. Qed.

Lemma Forall2_nth_error {A B} (P : A -> B -> Prop) l r i :
  Forall2 P l r ->
  match nth_error l i, nth_error r i with
  | Some a, Some b => P a b
  | None, None => True
  | _, _ => False
  end.
Proof.
  intros H; revert i; induction H as [|a b l r Hab H IH]; intros [|i]; simpl; auto.
  apply IH.
Qed.

Lemma mapM_nth {A B} (f : A -> res B) l ys i :
  mapM f l = Ok ys ->
  match nth_error l i, nth_error ys i with
  | Some a, Some b => f a = Ok b
  | None, None => True
  | _, _ => False
  end.
Proof. intros H; apply mapM_ok in H. apply (Forall2_nth_error _ _ _ i H). Qed.

Lemma nth_error_ext {A} (l r : list A) :
  (forall i, nth_error l i = nth_error r i) -> l = r.
Proof.
  revert r; induction l as [|x l IH]; intros [|y r] H.
  - reflexivity.
  - specialize (H 0); discriminate.
  - specialize (H 0); discriminate.
  - f_equal; [specialize (H 0); simpl in H; congruence|].
    apply IH; intros i; exact (H (S i)).
Qed.

Lemma nth_error_in_range {A} (l : list A) i :
  i < length l -> exists x, nth_error l i = Some x.
Proof.
  intros H. destruct (nth_error l i) as [x|] eqn:E; [eauto|].
  apply nth_error_None in E; lia.
Qed.

Lemma map2_length {A B C} (f : A -> B -> C) l r :
  length (map2 f l r) = Nat.min (length l) (length r).
Proof. revert r; induction l as [|a l IH]; intros [|b r]; simpl; auto. Qed.

Lemma map2_nth {A B C} (f : A -> B -> C) l r i :
  nth_error (map2 f l r) i =
  match nth_error l i, nth_error r i with Some a, Some b => Some (f a b) | _, _ => None end.
Proof.
  revert r i; induction l as [|a l IH]; intros [|b r] [|i]; simpl; auto.
  destruct (nth_error l i); reflexivity.
Qed.

Lemma nth_error_map' {A B} (f : A -> B) l i :
  nth_error (map f l) i = option_map f (nth_error l i).
Proof. revert i; induction l as [|x l IH]; intros [|i]; simpl; auto. Qed.

Lemma set_nth_length {A} (l : list A) i x : length (set_nth l i x) = length l.
Proof. revert i; induction l as [|y l IH]; intros [|i]; simpl; auto. Qed.

Lemma set_nth_nth {A} (l : list A) i x j :
  nth_error (set_nth l i x) j =
  if Nat.eqb i j then match nth_error l j with Some _ => Some x | None => None end
  else nth_error l j.
Proof.
  revert i j; induction l as [|y l IH]; intros [|i] [|j]; simpl; auto.
  destruct (Nat.eqb i j); reflexivity.
Qed.

Lemma enum_from_nth {A} (l : list A) n i :
  nth_error (enum_from n l) i = option_map (fun x => (n + i, x)) (nth_error l i).
Proof.
  revert n i; induction l as [|x l IH]; intros n [|i]; simpl; auto.
  - rewrite Nat.add_0_r; reflexivity.
  - rewrite IH. destruct (nth_error l i); simpl; [do 2 f_equal; lia | reflexivity].
Qed.

Lemma enumerate_nth {A} (l : list A) i :
  nth_error (enumerate l) i = option_map (fun x => (i, x)) (nth_error l i).
Proof. unfold enumerate; rewrite enum_from_nth; reflexivity. Qed.

Lemma enum_from_length {A} (l : list A) n : length (enum_from n l) = length l.
Proof. revert n; induction l as [|x l IH]; intros n; simpl; auto. Qed.

Lemma enum_from_In {A} (l : list A) n i x :
  In (i, x) (enum_from n l) <-> n <= i /\ nth_error l (i - n) = Some x.
Proof.
  revert n; induction l as [|y l IH]; intros n; simpl.
  - split; [intros [] | intros [_ H]; destruct (i - n); discriminate].
  - rewrite IH. split.
    + intros [H|[H1 H2]].
      * injection H as <- <-. rewrite Nat.sub_diag. auto.
      * split; [lia|]. replace (i - n) with (S (i - S n)) by lia. exact H2.
    + intros [H1 H2]. destruct (Nat.eq_dec i n) as [->|Hn].
      * rewrite Nat.sub_diag in H2. injection H2 as ->. auto.
      * right. split; [lia|]. replace (i - n) with (S (i - S n)) in H2 by lia. exact H2.
Qed.

Lemma enumerate_In {A} (l : list A) i x : In (i, x) (enumerate l) <-> nth_error l i = Some x.
Proof. unfold enumerate; rewrite enum_from_In, Nat.sub_0_r; intuition lia. Qed.

Lemma positions_In m i : In i (positions m) <-> nth_error m i = Some true.
Proof.
  unfold positions. rewrite in_map_iff. split.
  - intros ([j b] & <- & H). apply filter_In in H as [H1 H2]. simpl in *. subst b.
    apply enumerate_In; exact H1.
  - intros H. exists (i, true). split; [reflexivity|]. apply filter_In; split; [|reflexivity].
    apply enumerate_In; exact H.
Qed.

Lemma filter_map_compress {A} (m : list bool) (l : list A) n :
  length m = length l ->
  map (fun i => nth_error l (i - n)) (map fst (filter (fun p => snd p) (enum_from n m)))
  = map Some (compress m l).
Proof.
  revert l n; induction m as [|b m IH]; intros [|x l] n H; simpl in *; try discriminate; auto.
  injection H as H.
  assert (Hs : map (fun i => nth_error (x :: l) (i - n))
                   (map fst (filter (fun p => snd p) (enum_from (S n) m)))
               = map Some (compress m l)).
  { rewrite <- (IH l (S n) H). apply map_ext_in. intros i Hi.
    apply in_map_iff in Hi as ([j c] & Hj & Hi); simpl in Hj; subst j.
    apply filter_In in Hi as [Hi _]. apply enum_from_In in Hi as [Hi _].
    replace (i - n) with (S (i - S n)) by lia. reflexivity. }
  destruct b; simpl; [|exact Hs].
  rewrite Nat.sub_diag. simpl. f_equal. exact Hs.
Qed.

Lemma compress_positions {A} (m : list bool) (l : list A) :
  length m = length l ->
  map (nth_error l) (positions m) = map Some (compress m l).
Proof.
  intros H. rewrite <- (filter_map_compress m l 0 H). unfold positions, enumerate.
  apply map_ext. intros i. rewrite Nat.sub_0_r. reflexivity.
Qed.

Lemma compress_length {A} m (l : list A) :
  length m = length l -> length (compress m l) = count_true m.
Proof.
  unfold count_true. revert l; induction m as [|b m IH]; intros [|x l] H; simpl in *; try discriminate; auto.
  injection H as H. destruct b; simpl; auto.
Qed.

Lemma compress_In {A} m (l : list A) x :
  In x (compress m l) <-> exists i, nth_error m i = Some true /\ nth_error l i = Some x.
Proof.
  revert l; induction m as [|b m IH]; intros l.
  - simpl. split; [intros [] | intros (i & H & _); destruct i; discriminate].
  - destruct l as [|y l].
    + simpl. destruct b; (split; [intros [] | intros ([|i] & _ & H); discriminate]).
    + assert (Hr : (exists i, nth_error m i = Some true /\ nth_error l i = Some x) <->
                   (exists i, nth_error (b :: m) (S i) = Some true /\ nth_error (y :: l) (S i) = Some x))
        by (simpl; tauto).
      destruct b; simpl compress; simpl In; rewrite IH, Hr; clear Hr IH.
      * split.
        -- intros [->|(i & H)]; [exists 0; auto | exists (S i); exact H].
        -- intros ([|i] & H1 & H2); [left; simpl in H2; congruence | right; exists i; auto].
      * split.
        -- intros (i & H); exists (S i); exact H.
        -- intros ([|i] & H1 & H2); [discriminate | exists i; auto].
Qed.

Lemma compress_map {A B} (f : A -> B) m l : compress m (map f l) = map f (compress m l).
Proof.
  revert l; induction m as [|b m IH]; intros [|x l]; simpl; try destruct b; simpl; auto.
  rewrite IH; reflexivity.
Qed.

Lemma Forall_nth_error {A} (P : A -> Prop) l :
  Forall P l <-> forall i x, nth_error l i = Some x -> P x.
Proof.
  rewrite Forall_forall. split.
  - intros H i x Hx. apply H. eapply nth_error_In; exact Hx.
  - intros H x Hx. apply In_nth_error in Hx as (i & Hi). eapply H; exact Hi.
Qed.

Lemma get_ok {A} (l : list A) i x : get l i = Ok x <-> nth_error l i = Some x.
Proof. unfold get; destruct (nth_error l i); split; congruence. Qed.

Lemma Forall2_impl {A B} (P Q : A -> B -> Prop) l r :
  (forall a b, P a b -> Q a b) -> Forall2 P l r -> Forall2 Q l r.
Proof. intros HI H; induction H; constructor; auto. Qed.
