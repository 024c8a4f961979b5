(** Python's insertion-ordered dictionary (dict / OrderedDict) with string
    keys, as an association list in insertion order.  Backs
    MaskGroup._mask_arrays (data.py 716-718). *)
From Verif Require Import Prelude.

Section Dict.
  Context {A : Type}.

  (** [d[k]] (None stands for KeyError). *)
  Fixpoint dget (k : string) (d : list (string * A)) : option A :=
    match d with
    | [] => None
    | (k', v) :: r => if String.eqb k k' then Some v else dget k r
    end.

  (** [d[k] = v]: in place when present, appended otherwise. *)
  Fixpoint dset (k : string) (v : A) (d : list (string * A)) : list (string * A) :=
    match d with
    | [] => [(k, v)]
    | (k', v') :: r => if String.eqb k k' then (k', v) :: r else (k', v') :: dset k v r
    end.

  (** [d.pop(k)] on a present key. *)
  Fixpoint ddel (k : string) (d : list (string * A)) : list (string * A) :=
    match d with
    | [] => []
    | (k', v') :: r => if String.eqb k k' then r else (k', v') :: ddel k r
    end.

  (** [OrderedDict(pairs)]. *)
  Definition dict_of (ps : list (string * A)) : list (string * A) :=
    fold_left (fun d p => dset (fst p) (snd p) d) ps [].

  Definition dkeys (d : list (string * A)) : list string := map fst d.

  Lemma dget_In k d v : dget k d = Some v -> In (k, v) d.
  Proof.
    induction d as [|[k' v'] r IH]; simpl; [discriminate|].
    destruct (String.eqb_spec k k') as [<-|H]; [intros E; injection E as ->; auto | auto].
  Qed.

  Lemma dget_None k d : dget k d = None <-> ~ In k (dkeys d).
  Proof.
    induction d as [|[k' v'] r IH]; simpl; [tauto|].
    destruct (String.eqb_spec k k') as [<-|H]; split; intros E; try discriminate.
    - exfalso; apply E; auto.
    - intros [E'|E']; [congruence | apply IH in E; auto].
    - apply IH. intros E'; apply E; auto.
  Qed.

  Lemma In_dget k v d : NoDup (dkeys d) -> In (k, v) d -> dget k d = Some v.
  Proof.
    induction d as [|[k' v'] r IH]; simpl; [intros _ []|].
    intros ND H. inversion ND as [|? ? Hn ND']; subst.
    destruct H as [E|H].
    - injection E as -> ->. rewrite String.eqb_refl. reflexivity.
    - destruct (String.eqb_spec k k') as [<-|Hk]; [|auto].
      exfalso; apply Hn. change k with (fst (k, v)). apply in_map; exact H.
  Qed.

  Lemma dget_iff k v d : NoDup (dkeys d) -> (dget k d = Some v <-> In (k, v) d).
  Proof. intros ND; split; [apply dget_In | apply In_dget; exact ND]. Qed.

  Lemma dset_keys_in k v d : In k (dkeys d) -> dkeys (dset k v d) = dkeys d.
  Proof.
    induction d as [|[k' v'] r IH]; simpl; [intros []|].
    destruct (String.eqb_spec k k') as [<-|H]; simpl; [auto|].
    intros [E|E]; [congruence | rewrite IH; auto].
  Qed.

  Lemma dset_notin k v d : ~ In k (dkeys d) -> dset k v d = d ++ [(k, v)].
  Proof.
    induction d as [|[k' v'] r IH]; simpl; [auto|].
    destruct (String.eqb_spec k k') as [<-|H]; intros E; [exfalso; auto|].
    rewrite IH; auto.
  Qed.

  Lemma dset_keys k v d :
    dkeys (dset k v d) = if existsb (String.eqb k) (dkeys d) then dkeys d else dkeys d ++ [k].
  Proof.
    induction d as [|[k' v'] r IH]; simpl; [reflexivity|].
    destruct (String.eqb k k'); simpl; [reflexivity|]. rewrite IH.
    destruct (existsb (String.eqb k) (dkeys r)); reflexivity.
  Qed.

  Lemma dget_dset k v d k' : dget k' (dset k v d) = if String.eqb k' k then Some v else dget k' d.
  Proof.
    induction d as [|[k0 v0] r IH]; simpl.
    - destruct (String.eqb k' k); reflexivity.
    - destruct (String.eqb_spec k k0) as [<-|H]; simpl.
      + destruct (String.eqb k' k); reflexivity.
      + rewrite IH. destruct (String.eqb_spec k' k0) as [->|H0]; [|reflexivity].
        destruct (String.eqb_spec k0 k); [congruence | reflexivity].
  Qed.

  Lemma dset_NoDup k v d : NoDup (dkeys d) -> NoDup (dkeys (dset k v d)).
  Proof.
    intros H. destruct (in_dec string_dec k (dkeys d)) as [Hi|Hi].
    - rewrite dset_keys_in; assumption.
    - rewrite dset_notin by exact Hi. unfold dkeys; rewrite map_app; simpl.
      apply Permutation_NoDup with (l := k :: map fst d).
      + apply Permutation_cons_append.
      + constructor; assumption.
  Qed.

  Lemma ddel_keys_In k k' d : NoDup (dkeys d) -> (In k' (dkeys (ddel k d)) <-> In k' (dkeys d) /\ k' <> k).
  Proof.
    induction d as [|[k0 v0] r IH]; simpl; [tauto|].
    intros ND; inversion ND as [|? ? Hn ND']; subst.
    destruct (String.eqb_spec k k0) as [<-|H]; simpl.
    - split; [|intros [[E|E] Hk]; [congruence | exact E]].
      intros E; split; [auto | intros ->; auto].
    - rewrite IH by exact ND'. split.
      + intros [<-|[E Hk]]; auto.
      + intros [[E|E] Hk]; auto.
  Qed.

  Lemma ddel_NoDup k d : NoDup (dkeys d) -> NoDup (dkeys (ddel k d)).
  Proof.
    induction d as [|[k0 v0] r IH]; simpl; [auto|].
    intros ND; inversion ND as [|? ? Hn ND']; subst.
    destruct (String.eqb_spec k k0) as [<-|H]; [exact ND'|]. simpl; constructor; [|auto].
    intros E. apply ddel_keys_In in E; [|exact ND']. tauto.
  Qed.

  Lemma ddel_filter k d :
    NoDup (dkeys d) -> ddel k d = filter (fun p => negb (String.eqb (fst p) k)) d.
  Proof.
    induction d as [|[k0 v0] r IH]; simpl; [auto|].
    intros ND; inversion ND as [|? ? Hn ND']; subst.
    rewrite (String.eqb_sym k0 k).
    destruct (String.eqb_spec k k0) as [<-|H]; simpl; [|f_equal; auto].
    rewrite <- IH by exact ND'. clear IH ND ND'.
    induction r as [|[k1 v1] r IHr]; simpl in *; [reflexivity|].
    destruct (String.eqb_spec k k1) as [<-|H1]; [exfalso; auto | f_equal; auto].
  Qed.

  Lemma dget_ddel k d k' :
    NoDup (dkeys d) -> dget k' (ddel k d) = if String.eqb k' k then None else dget k' d.
  Proof.
    induction d as [|[k0 v0] r IH]; simpl.
    - intros _; destruct (String.eqb k' k); reflexivity.
    - intros ND; inversion ND as [|? ? Hn ND']; subst.
      destruct (String.eqb_spec k k0) as [<-|H]; simpl.
      + destruct (String.eqb_spec k' k) as [E|E]; [|reflexivity].
        apply dget_None; rewrite E; exact Hn.
      + rewrite IH by exact ND'. destruct (String.eqb_spec k' k0) as [->|H0]; [|reflexivity].
        destruct (String.eqb_spec k0 k); [congruence | reflexivity].
  Qed.

  Lemma dict_of_app_NoDup ps d :
    NoDup (dkeys d ++ dkeys ps) ->
    fold_left (fun d p => dset (fst p) (snd p) d) ps d = d ++ ps.
  Proof.
    revert d; induction ps as [|[k v] ps IH]; intros d H; cbn [fold_left fst snd dkeys map].
    - rewrite app_nil_r; reflexivity.
    - rewrite dset_notin.
      + rewrite IH; [rewrite <- app_assoc; reflexivity|].
        unfold dkeys in *; rewrite map_app; simpl in *. rewrite <- app_assoc. exact H.
      + intros Hi. unfold dkeys in H; simpl in H. apply NoDup_remove_2 in H.
        apply H, in_or_app; left; exact Hi.
  Qed.

  Lemma dict_of_NoDup ps : NoDup (dkeys ps) -> dict_of ps = ps.
  Proof. intros H. unfold dict_of. rewrite dict_of_app_NoDup; [reflexivity | exact H]. Qed.

  Lemma fold_dset_keys_NoDup ps d :
    NoDup (dkeys d) -> NoDup (dkeys (fold_left (fun d p => dset (fst p) (snd p) d) ps d)).
  Proof.
    revert d; induction ps as [|p ps IH]; intros d H; cbn [fold_left]; [exact H|].
    apply IH, dset_NoDup, H.
  Qed.

  Lemma dict_of_keys_NoDup ps : NoDup (dkeys (dict_of ps)).
  Proof. apply fold_dset_keys_NoDup. constructor. Qed.

  (** The value kept for a key is the last one given. *)
  Lemma dget_fold_dset ps d k :
    dget k (fold_left (fun d p => dset (fst p) (snd p) d) ps d) =
    match dget k (rev ps) with Some v => Some v | None => dget k d end.
  Proof.
    revert d; induction ps as [|[k0 v0] ps IH]; intros d; cbn [fold_left fst snd rev]; [reflexivity|].
    rewrite IH, dget_dset.
    assert (Happ : forall l, dget k (l ++ [(k0, v0)]) =
              match dget k l with Some v => Some v | None => if String.eqb k k0 then Some v0 else None end).
    { clear; induction l as [|[k1 v1] l IHl]; simpl; [reflexivity|].
      destruct (String.eqb k k1); [reflexivity | exact IHl]. }
    rewrite Happ. destruct (dget k (rev ps)); [reflexivity|].
    destruct (String.eqb k k0); reflexivity.
  Qed.

  Lemma dget_dict_of ps k : dget k (dict_of ps) = dget k (rev ps).
  Proof. unfold dict_of. rewrite dget_fold_dset. destruct (dget k (rev ps)); reflexivity. Qed.
End Dict.

Lemma dget_map {A B} (f : A -> B) k (d : list (string * A)) :
  dget k (map (fun p => (fst p, f (snd p))) d) = option_map f (dget k d).
Proof.
  induction d as [|[k' v] r IH]; simpl; [reflexivity|].
  destruct (String.eqb k k'); [reflexivity | exact IH].
Qed.

Lemma dkeys_map {A B} (f : A -> B) (d : list (string * A)) :
  dkeys (map (fun p => (fst p, f (snd p))) d) = dkeys d.
Proof. unfold dkeys; rewrite map_map; reflexivity. Qed.
