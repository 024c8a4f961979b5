(** Parallel loops ([numba.prange]) as interleaved iteration bodies on a shared memory. *)
From Verif Require Import Prelude.

Section Par.
  (** [C]: cells of the output array; [V]: their contents; [L]: an iteration's local variables. *)
  Context {C V L : Type}.
  Definition mem := C -> V.
  (** One atomic action of an iteration: it may read and write memory and its locals. *)
  Definition action := L -> mem -> L * mem.
  Definition iter := (list action * L)%type.

  (** Every schedule: at each moment any unfinished iteration may perform its next action.  This
      covers every number of threads and every assignment of iterations to threads. *)
  Inductive runs : list iter -> mem -> mem -> Prop :=
  | runs_done its m : (forall p, In p its -> fst p = []) -> runs its m m
  | runs_step its i a rest l l' m m1 m2 :
      nth_error its i = Some (a :: rest, l) -> a l m = (l', m1) ->
      runs (set_nth its i (rest, l')) m1 m2 -> runs its m m2.

  (** The sequential execution of one iteration alone. *)
  Fixpoint solo (p : list action) (l : L) (m : mem) : mem :=
    match p with [] => m | a :: r => let '(l', m') := a l m in solo r l' m' end.

  Definition agree (F : C -> Prop) (m m' : mem) : Prop := forall c, F c -> m c = m' c.
  (** An action that reads and writes only cells of [F]. *)
  Definition confined (F : C -> Prop) (a : action) : Prop :=
    (forall l m m', agree F m m' -> fst (a l m) = fst (a l m') /\ agree F (snd (a l m)) (snd (a l m'))) /\
    (forall l m c, ~ F c -> snd (a l m) c = m c).

  (** A write of a value that does not depend on memory. *)
  Definition put_cell (eqb : C -> C -> bool) (c : C) (v : V) : action :=
    fun l m => (l, fun c' => if eqb c c' then v else m c').
End Par.
Arguments mem : clear implicits.
Arguments action : clear implicits.
Arguments iter : clear implicits.

Section Lemmas.
  Context {C V L : Type}.

  Lemma solo_agree F (p : list (action C V L)) : Forall (confined F) p -> forall l m m', agree F m m' -> agree F (solo p l m) (solo p l m').
  Proof.
    induction 1 as [|a r (H1 & _) _ IH]; intros l m m' A; cbn; [exact A|].
    destruct (H1 l m m' A) as (E & A'). destruct (a l m) as (l1, m1), (a l m') as (l2, m2). cbn in *. subst l2. apply IH, A'.
  Qed.

  (** With pairwise disjoint footprints, under every schedule each iteration's cells end exactly as if
      it had run alone from the initial memory, and all other cells are untouched. *)
  Theorem runs_disjoint (F : nat -> C -> Prop) :
    (forall i j c, F i c -> F j c -> i = j) ->
    forall (its : list (iter C V L)) m m', runs its m m' ->
    (forall i p l, nth_error its i = Some (p, l) -> Forall (confined (F i)) p) ->
    (forall i p l, nth_error its i = Some (p, l) -> agree (F i) m' (solo p l m)) /\
    (forall c, (forall i, (i < length its)%nat -> ~ F i c) -> m' c = m c).
  Proof.
    intros HD its m m' HR. induction HR as [its m HE | its i a rest l l' m m1 m2 Hi Ha HR IH]; intros HC.
    - split; [|reflexivity]. intros i p l Hp. apply nth_error_In in Hp as Hp'. apply HE in Hp'. cbn in Hp'. subst p. intros c _. reflexivity.
    - pose proof (HC _ _ _ Hi) as HCi. inversion HCi as [|? ? Ca Cr]; subst.
      assert (HL : (i < length its)%nat) by (apply nth_error_Some; congruence).
      destruct IH as (IH1 & IH2).
      { intros j p lj Hj. rewrite set_nth_nth in Hj. destruct (Nat.eqb_spec i j) as [E|N].
        - rewrite <- E in *. match type of Hj with match ?x with _ => _ end = _ => destruct x end; [|discriminate]. injection Hj as <- <-. exact Cr.
        - eapply HC. exact Hj. }
      assert (HO : forall c, ~ F i c -> m1 c = m c) by (intros c Hc; destruct Ca as (_ & W); specialize (W l m c Hc); rewrite Ha in W; exact W).
      split.
      + intros j p lj Hj. destruct (Nat.eq_dec i j) as [<-|N].
        * pose proof (eq_trans (eq_sym Hi) Hj) as E. injection E as <- <-. cbn. rewrite Ha. apply IH1. rewrite set_nth_nth. rewrite Nat.eqb_refl. match goal with |- match ?x with _ => _ end = _ => change x with (nth_error its i); rewrite Hi end. reflexivity.
        * intros c Hc. rewrite (IH1 j p lj); [|rewrite set_nth_nth; destruct (Nat.eqb_spec i j); [contradiction|exact Hj] | exact Hc].
          apply (solo_agree (F j)); [eapply HC, Hj | | exact Hc]. intros d Hd. apply HO. intros Hi'. apply N. eapply HD; eauto.
      + intros c Hc. rewrite IH2; [apply HO, Hc; exact HL|]. intros j Hj. rewrite set_nth_length in Hj. auto.
  Qed.

  Lemma classic_done (its : list (iter C V L)) : (forall p, In p its -> fst p = []) \/ exists i a r l, nth_error its i = Some (a :: r, l).
  Proof.
    induction its as [|(p, l) its [IH|(i & a & r & l' & IH)]]; [left; intros p []| |right; exists (S i), a, r, l'; exact IH].
    destruct p as [|a r]; [left; intros q [<-|H]; [reflexivity|auto] | right; exists 0%nat, a, r, l; reflexivity].
  Qed.
  (** Some schedule always exists, and every partial execution can be completed. *)
  Lemma runs_exists : forall n (its : list (iter C V L)) m, (fold_right (fun p k => length (fst p) + k) 0 its <= n)%nat -> exists m', runs its m m'.
  Proof.
    induction n as [|n IH]; intros its m Hn.
    - exists m. apply runs_done. intros p Hp. apply in_split in Hp as (a & b & ->). rewrite fold_right_app in Hn. cbn in Hn.
      destruct (fst p); [reflexivity|]. exfalso. cbn in Hn. revert Hn.
      match goal with |- (fold_right _ (S ?k) _ <= 0)%nat -> _ => generalize k end. clear. intros k. induction a as [|x a IH]; cbn; [lia|]. intros H. apply IH. lia.
    - destruct (classic_done its) as [A|(i & a & r & l & Hi)].
      + exists m. apply runs_done. exact A.
      + destruct (a l m) as (l', m1) eqn:E. destruct (IH (set_nth its i (r, l')) m1) as (m' & R); [|exists m'; exact (runs_step its i a r l l' m m1 m' Hi E R)].
        assert (G : forall i (its : list (iter C V L)), nth_error its i = Some (a :: r, l) ->
          S (fold_right (fun p k => length (fst p) + k) 0 (set_nth its i (r, l'))) = fold_right (fun p k => length (fst p) + k) 0 its).
        { clear. induction i; destruct its as [|x its]; intros H; try discriminate; cbn in *.
          - injection H as ->. cbn. reflexivity.
          - rewrite <- (IHi _ H). lia. }
        specialize (G _ _ Hi). lia.
  Qed.

  Lemma confined_put eqb (F : C -> Prop) c (v : V) : (forall x y, eqb x y = true <-> x = y) -> F c -> confined F (put_cell (L := L) eqb c v).
  Proof.
    intros HE HF. split.
    - intros l m m' A. split; [reflexivity|]. intros d Hd. cbn. destruct (eqb c d); auto.
    - intros l m d Hd. cbn. destruct (eqb c d) eqn:E; [apply HE in E; congruence|reflexivity].
  Qed.

  (** A body made only of such writes: the last write to a cell wins. *)
  Lemma solo_puts eqb (ws : list (C * V)) l (m : mem C V) c : (forall x y, eqb x y = true <-> x = y) ->
    solo (map (fun w => put_cell (L := L) eqb (fst w) (snd w)) ws) l m c =
    match find (fun w => eqb (fst w) c) (rev ws) with Some w => snd w | None => m c end.
  Proof.
    intros HE. revert m. induction ws as [|w ws IH]; intros m; [reflexivity|]. cbn [map solo put_cell]. rewrite IH. cbn [rev].
    assert (FA : forall (f : C * V -> bool) a b, find f (a ++ b) = match find f a with Some x => Some x | None => find f b end).
    { induction a as [|x a IHa]; intros b; [reflexivity|]. cbn. destruct (f x); auto. }
    rewrite FA. destruct (find (fun w0 => eqb (fst w0) c) (rev ws)); [reflexivity|]. cbn. destruct (eqb (fst w) c); reflexivity.
  Qed.
End Lemmas.
