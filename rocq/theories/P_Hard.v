(** Properties C40-C43: names and descendants of the hard partons. *)
From Verif Require Import Prelude Dict Keys MaskTypes SpecMask Mask SpecArray SpecAdj Arrays Composite Adjacency Descend SpecHard Hard HardProofs.

(** * C40 *)

Theorem C40_hard_descendants : forall name ev n sign_sensitive strict,
  event_ok n ev -> (forall z, has_colon (name z) = false) ->
  exists kids, hard_descendants name ev None sign_sensitive strict = Ok (MGrp "or" kids) /\
    named (map (fun i => name (nth i (e_pdg ev) 0%Z)) (hard_rows ev)) (dkeys kids) /\
    forall j p, nth_error (hard_rows ev) j = Some p ->
      exists k m, nth_error kids j = Some (k, MArr m) /\ length m = n /\
        forall i, nth_error m i = Some true <-> i = p \/ descends (e_edges ev) p i.
Proof. intros name ev n ss strict Hok Hname. exact (hard_all name ev n Hok Hname). Qed.
Print Assumptions C40_hard_descendants.

(** Every mask of the group belongs to a hard parton: there are as many. *)
Theorem C40_count : forall name ev n sign_sensitive strict kids,
  event_ok n ev -> (forall z, has_colon (name z) = false) ->
  hard_descendants name ev None sign_sensitive strict = Ok (MGrp "or" kids) -> length kids = length (hard_rows ev).
Proof.
  intros name ev n ss strict kids Hok Hname H. destruct (C40_hard_descendants name ev n ss strict Hok Hname) as (kids' & E & (L & _) & _).
  rewrite E in H. injection H as <-. unfold dkeys in L. rewrite !map_length in L. exact L.
Qed.
Print Assumptions C40_count.

(** A small event: two incoming partons make t and b; t decays to W b. *)
Definition demo_name (z : Z) : string :=
  (if Z.eqb z 6 then "t" else if Z.eqb z 5 then "b" else if Z.eqb z 24 then "W+" else if Z.eqb z 21 then "g" else "?")%string.
Lemma demo_name_ok z : has_colon (demo_name z) = false.
Proof. unfold demo_name. repeat (destruct (Z.eqb _ _); [reflexivity|]). reflexivity. Qed.
Definition demo : event :=
  mkE [(0, 2); (1, 2); (2, 3); (2, 4); (3, 5); (3, 6); (4, 7); (5, 8)]%Z
      [21; 21; 6; 5; 24; 5; 5; 24]%Z [-21; -21; -22; 23; 22; 23; 71; 71]%Z
      [false; false; false; false; false; true; true; true].
Lemma demo_ok : event_ok 8 demo.
Proof. unfold event_ok, demo, fits16, fits32. cbn. repeat split; repeat constructor; lia. Qed.

Example C40_case : hard_rows demo = [2; 3; 4; 5] /\
  hard_descendants demo_name demo None false true =
  Ok (MGrp "or" [("t", MArr [false; false; true; false; true; true; false; true]);
                 ("b:0", MArr [false; false; false; true; false; false; true; false]);
                 ("W+", MArr [false; false; false; false; true; false; false; true]);
                 ("b:1", MArr [false; false; false; false; false; true; false; false])])%string.
Proof. split; reflexivity. Qed.

(** * C41 *)

(** What the docstring promises for a target. *)
Definition C41_full : Prop := forall name ev n target ss strict kids,
  event_ok n ev -> (forall z, has_colon (name z) = false) -> Forall target_ok target ->
  hard_descendants name ev (Some target) ss strict = Ok (MGrp "or" kids) ->
  forall j p, nth_error (selected_rows ev target ss) j = Some p ->
    exists k m, nth_error kids j = Some (k, MArr m) /\ forall i, nth_error m i = Some true <-> i = p \/ descends (e_edges ev) p i.

(** In the demo event, asking for b partons: 'b:0' lacks the b itself (record 3) and contains the top (record 2). *)
Theorem C41_target_refuted : ~ C41_full.
Proof.
  intros H.
  assert (E : hard_descendants demo_name demo (Some [5%Z]) false true =
    Ok (MGrp "or" [("b:0", MArr [false; false; true; false; false; false; true; false]);
                   ("b:1", MArr [false; false; false; true; false; true; false; false])])%string) by reflexivity.
  assert (T : Forall target_ok [5%Z]) by (repeat constructor; unfold fits32; lia).
  destruct (H demo_name demo 8 [5%Z] false true _ demo_ok demo_name_ok T E 0 3 eq_refl) as (k & m & Hk & Hm).
  cbn in Hk. injection Hk as <- <-. assert (F : nth_error [false; false; true; false; false; false; true; false] 3 = Some true).
  { apply Hm. left. reflexivity. }
  discriminate F.
Qed.
Print Assumptions C41_target_refuted.

(** What does hold: the j-th mask is the j-th selected parton's descendants
    plus the record of the j-th parton of the whole hard process. *)
Theorem C41_target_partial : forall name ev n target ss strict kids,
  event_ok n ev -> (forall z, has_colon (name z) = false) -> Forall target_ok target ->
  hard_descendants name ev (Some target) ss strict = Ok (MGrp "or" kids) ->
  named (map (fun i => name (nth i (e_pdg ev) 0%Z)) (selected_rows ev target ss)) (dkeys kids) /\
  forall j p, nth_error (selected_rows ev target ss) j = Some p ->
    exists r k m, nth_error (hard_rows ev) j = Some r /\ nth_error kids j = Some (k, MArr m) /\ length m = n /\
      forall i, nth_error m i = Some true <-> i = r \/ descends (e_edges ev) p i.
Proof.
  intros name ev n target ss strict kids Hok Hname HT E.
  destruct (hard_target name ev n Hok Hname target ss strict HT) as [HE HO].
  destruct HO as (kids' & E' & HN & H).
  { intros F. rewrite (HE F) in E. discriminate. }
  assert (kids' = kids) by congruence. subst kids'. split; [exact HN|]. intros j p Hj.
  assert (L : length (selected_rows ev target ss) <= length (hard_rows ev)).
  { unfold selected_rows. clear. induction (hard_rows ev) as [|r l IH]; [apply le_n|]. cbn. destruct (matches _ _ _); cbn; lia. }
  destruct (nth_error_in_range (hard_rows ev) j) as (r & Hr).
  { assert (j < length (selected_rows ev target ss)) by (apply nth_error_Some; congruence). lia. }
  destruct (H j p r Hj Hr) as (k & m & H1 & H2 & H3). eauto 10.
Qed.
Print Assumptions C41_target_partial.

(** So the promise is kept when the target selects the first partons of the
    hard process, in particular when it selects all of them. *)
Theorem C41_prefix_partial : forall name ev n target ss strict kids rest,
  event_ok n ev -> (forall z, has_colon (name z) = false) -> Forall target_ok target ->
  hard_descendants name ev (Some target) ss strict = Ok (MGrp "or" kids) ->
  hard_rows ev = selected_rows ev target ss ++ rest ->
  forall j p, nth_error (selected_rows ev target ss) j = Some p ->
    exists k m, nth_error kids j = Some (k, MArr m) /\ forall i, nth_error m i = Some true <-> i = p \/ descends (e_edges ev) p i.
Proof.
  intros name ev n target ss strict kids rest Hok Hname HT E HR j p Hj.
  destruct (C41_target_partial name ev n target ss strict kids Hok Hname HT E) as (_ & H).
  destruct (H j p Hj) as (r & k & m & H1 & H2 & _ & H3). exists k, m. split; [exact H2|].
  rewrite HR, nth_error_app1 in H1 by (apply nth_error_Some; congruence). assert (r = p) by congruence. subst r. exact H3.
Qed.
Print Assumptions C41_prefix_partial.

(** * C42 *)

Theorem C42_target_errors : forall name ev n target ss strict,
  event_ok n ev -> (forall z, has_colon (name z) = false) -> Forall target_ok target ->
  (hard_descendants name ev (Some target) ss strict = Err ValueError <->
   selected_rows ev target ss = [] \/ (strict = true /\ exists t, In t target /\ selected_rows ev [t] ss = [])) /\
  (forall e, hard_descendants name ev (Some target) ss strict = Err e -> e = ValueError).
Proof.
  intros name ev n target ss strict Hok Hname HT.
  destruct (hard_target name ev n Hok Hname target ss strict HT) as [HE HO].
  assert (D : forall (ts : list Z), (exists t, In t ts /\ selected_rows ev [t] ss = []) \/ ~ (exists t, In t ts /\ selected_rows ev [t] ss = [])).
  { induction ts as [|t ts IH]; [right; intros (t & [] & _)|].
    destruct (selected_rows ev [t] ss) eqn:Et; [left; exists t; split; [left; reflexivity | exact Et]|].
    destruct IH as [(u & Hu & Eu)|IH]; [left; exists u; split; [right; exact Hu | exact Eu]|].
    right. intros (u & [->|Hu] & Eu); [congruence | apply IH; eauto]. }
  set (C := selected_rows ev target ss = [] \/ (strict = true /\ exists t, In t target /\ selected_rows ev [t] ss = [])) in *.
  assert (DC : C \/ ~ C).
  { unfold C. destruct (selected_rows ev target ss); [left; left; reflexivity|].
    destruct strict; [destruct (D target); [left; right; auto | right; intros [F|[_ F]]; [discriminate | auto]] | right; intros [F|[F _]]; discriminate]. }
  destruct DC as [HC|HC].
  - split; [tauto|]. intros e E. rewrite (HE HC) in E. congruence.
  - destruct (HO HC) as (kids & E & _). split; [split; [rewrite E; discriminate | contradiction]|]. intros e F. rewrite E in F. discriminate.
Qed.
Print Assumptions C42_target_errors.

(** Matching, in words: some target code equals the parton's code, up to sign unless sign sensitive. *)
Theorem C42_selected : forall ev target ss r,
  In r (selected_rows ev target ss) <-> In r (hard_rows ev) /\ exists t, In t target /\
    if ss then t = nth r (e_pdg ev) 0%Z else Z.abs t = Z.abs (nth r (e_pdg ev) 0%Z).
Proof.
  intros ev target ss r. unfold selected_rows. rewrite filter_In. unfold matches. rewrite existsb_exists.
  split; intros (H & t & Ht & E); split; auto; exists t; split; auto; destruct ss; apply Z.eqb_eq; exact E.
Qed.
Print Assumptions C42_selected.

Example C42_case :
  hard_descendants demo_name demo (Some [13%Z]) false true = Err ValueError /\
  hard_descendants demo_name demo (Some [6; 13]%Z) false true = Err ValueError /\
  is_ok (hard_descendants demo_name demo (Some [6; 13]%Z) false false) = true /\
  is_ok (hard_descendants demo_name demo (Some [-6; 24]%Z) false true) = true /\
  hard_descendants demo_name demo (Some [-6; 24]%Z) true true = Err ValueError.
Proof. repeat split; reflexivity. Qed.

(** * C43 *)

Theorem C43_names : forall names, Forall (fun s => has_colon s = false) names -> named names (pdgs_to_keys names).
Proof. exact keys_named. Qed.
Print Assumptions C43_names.

(** The hypothesis on colons is needed for distinctness. *)
Example C43_case :
  pdgs_to_keys ["b"; "t"; "b"; "W+"; "b"]%string = ["b:0"; "t"; "b:1"; "W+"; "b:2"]%string /\
  pdgs_to_keys ["b"; "t"]%string = ["b"; "t"]%string /\ pdgs_to_keys [] = [] /\
  pdgs_to_keys ["b"; "b"; "b:0"]%string = ["b:0"; "b:1"; "b:0"]%string.
Proof. repeat split; reflexivity. Qed.
