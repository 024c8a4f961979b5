(** Values of the mask composite: base.MaskBase with its two implementations
    MaskArray (data.py 460-589) and MaskGroup (data.py 694-1026), seen as
    immutable values.  References and mutation are modelled in MaskHeap.v. *)
From Verif Require Import Prelude Dict.

(** [MArr d]: a MaskArray whose [_data] is the vector [d].
    [MGrp agg kids]: a MaskGroup with [_agg_op] the string [agg] and
    [_mask_arrays] the ordered dictionary [kids]. *)
Inductive mask :=
| MArr (d : list bool)
| MGrp (agg : string) (kids : list (string * mask)).

(** Enum MaskAggOp, data.py 682-685. *)
Inductive aggop := AND | OR | NONE.

(** Output of serialize(): tuples of bools nested in dictionaries. *)
Inductive ser :=
| SArr (d : list bool)
| SGrp (kids : list (string * ser)).

(** Induction principle through the nested list of children. *)
Section MaskInd.
  Variable P : mask -> Prop.
  Hypothesis Harr : forall d, P (MArr d).
  Hypothesis Hgrp : forall agg kids, Forall (fun p => P (snd p)) kids -> P (MGrp agg kids).
  Fixpoint mask_ind' (m : mask) : P m :=
    match m with
    | MArr d => Harr d
    | MGrp agg kids =>
        Hgrp agg kids
          ((fix go (l : list (string * mask)) : Forall (fun p => P (snd p)) l :=
              match l with
              | [] => Forall_nil _
              | p :: r => Forall_cons p (mask_ind' (snd p)) (go r)
              end) kids)
    end.
End MaskInd.

(** Python dictionaries have distinct keys: every group, at every level. *)
Fixpoint wf (m : mask) : Prop :=
  match m with
  | MArr _ => True
  | MGrp _ kids =>
      NoDup (dkeys kids) /\
      (fix all (l : list (string * mask)) : Prop :=
         match l with [] => True | p :: r => wf (snd p) /\ all r end) kids
  end.

Lemma wf_grp agg kids :
  wf (MGrp agg kids) <-> NoDup (dkeys kids) /\ Forall (fun p => wf (snd p)) kids.
Proof.
  simpl.
  assert (H : (fix all (l : list (string * mask)) : Prop :=
         match l with [] => True | p :: r => wf (snd p) /\ all r end) kids
         <-> Forall (fun p => wf (snd p)) kids); [|tauto].
  induction kids as [|p r IH]; [split; auto|].
  rewrite IH. split; [intros [H1 H2]; constructor; auto | intros H; inversion H; auto].
Qed.
