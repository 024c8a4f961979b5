(** C165, C166: text output and to_dict of mask groups. *)
From Verif Require Import Prelude Dict Keys MaskTypes SpecMask Mask MaskProofs MaskText.

(** Entry [p] of the tree [m] is drawn with one guide per level: the innermost is END for the last mask of its group
    and FORK otherwise; the outer ones are SPACE below the last mask of a group and CONTINUE otherwise. *)
Definition drawn (m : mask) (p : list string) (g : list guide) : Prop :=
  length g = length p /\
  forall j k, nth_error p j = Some k -> exists agg kids, at_path m (firstn j p) = Some (MGrp agg kids) /\ In k (dkeys kids) /\
    (last (dkeys kids) ""%string = k -> nth_error g j = Some (if S j =? length p then END else SPACE)) /\
    (last (dkeys kids) ""%string <> k -> nth_error g j = Some (if S j =? length p then FORK else CONTINUE)).

Fixpoint body (m : mask) : list line :=
  match m with MArr _ => [] | MGrp _ kids => hang_all (map (fun p => ([], fst p) :: body (snd p)) kids) end.

Lemma fold_add (f : string * mask -> rtree) kids : forall l ch,
  fold_left (fun b p => fst (add b (Sub (f p)))) kids (Node l ch) = Node l (ch ++ map (fun p => Node (Sub (f p)) []) kids).
Proof.
  induction kids as [|p kids IH]; intros l ch; cbn [fold_left map]; [rewrite app_nil_r; reflexivity|]. cbn [add fst]. rewrite IH, <- app_assoc. reflexivity.
Qed.
Lemma make_tree_lines m : forall s, lines (make_tree (Node (Text s) []) m) = ([], s) :: body m.
Proof.
  induction m as [d|agg kids IH] using mask_ind'; intros s; [reflexivity|]. cbn [make_tree].
  rewrite (fold_add (fun p => match snd p with MGrp _ _ => snd (add (Node (Text (fst p)) []) (Sub (make_tree (Node (Text (fst p)) []) (snd p)))) | MArr _ => Node (Text (fst p)) [] end)).
  cbn [lines app body]. f_equal. f_equal. rewrite map_map. induction IH as [|p r Hp _ IHr]; [reflexivity|]. cbn [map]. f_equal; [|exact IHr].
  destruct p as [k v]. cbn [fst snd] in *. destruct v as [d|a ks]; [reflexivity|].
  change (lines (Node (Sub (snd (add (Node (Text k) []) (Sub (make_tree (Node (Text k) []) (MGrp a ks)))))) [])) with ((lines (make_tree (Node (Text k) []) (MGrp a ks)) ++ []) ++ []).
  rewrite !app_nil_r. apply Hp.
Qed.

Lemma hang_snd b ls : map snd (hang b ls) = map snd ls.
Proof. destruct ls; [reflexivity|]. cbn. rewrite map_map. reflexivity. Qed.
Lemma hang_all_snd bs : map snd (hang_all bs) = map snd (concat bs).
Proof.
  induction bs as [|b bs IH]; [reflexivity|]. destruct bs as [|b' bs]; [cbn [hang_all concat]; rewrite app_nil_r; apply hang_snd|].
  change (hang_all (b :: b' :: bs)) with (hang false b ++ hang_all (b' :: bs)). change (concat (b :: b' :: bs)) with (b ++ concat (b' :: bs)).
  rewrite (map_app snd (hang false b)), (map_app snd b), hang_snd, IH. reflexivity.
Qed.
Lemma entries_ne m e : In e (entries m) -> fst e <> [].
Proof.
  destruct m as [d|agg kids]; [intros []|]. cbn [entries]. rewrite in_flat_map. intros (p & _ & [<-|H]); [discriminate|]. apply in_map_iff in H as (q & <- & _). discriminate.
Qed.
Lemma last_name_cons k q : q <> [] -> last_name (k :: q) = last_name q.
Proof. intros H. unfold last_name. destruct q; [contradiction|reflexivity]. Qed.
Lemma body_names m : map snd (body m) = map (fun e => last_name (fst e)) (entries m).
Proof.
  induction m as [d|agg kids IH] using mask_ind'; [reflexivity|]. cbn [body entries]. rewrite hang_all_snd. induction IH as [|p r Hp _ IHr]; [reflexivity|].
  cbn [map concat flat_map]. rewrite !map_app, IHr. f_equal. cbn [map snd]. f_equal. rewrite Hp, map_map. apply map_ext_in. intros e I. cbn [fst]. symmetry. apply last_name_cons. eapply entries_ne, I.
Qed.

Definition hung (lst : bool) (k : string) (e : list string * mask) : list string * mask := (k :: fst e, snd e).
Lemma drawn_head m k kids agg w : m = MGrp agg kids -> NoDup (dkeys kids) -> In (k, w) kids -> drawn m [k] [if String.eqb (last (dkeys kids) ""%string) k then END else FORK].
Proof.
  intros -> ND I. split; [reflexivity|]. intros [|j] x E; [|destruct j; discriminate]. injection E as <-. exists agg, kids. split; [reflexivity|].
  split; [apply in_map_iff; exists (k, w); auto|]. cbn. destruct (String.eqb_spec (last (dkeys kids) ""%string) k); split; intros; congruence.
Qed.
Lemma drawn_cons m k kids agg w p g : m = MGrp agg kids -> NoDup (dkeys kids) -> In (k, w) kids -> p <> [] -> drawn w p g ->
  drawn m (k :: p) ((if String.eqb (last (dkeys kids) ""%string) k then SPACE else CONTINUE) :: g).
Proof.
  intros -> ND I Hp (L & H). split; [cbn; f_equal; exact L|]. intros [|j] x E.
  - injection E as <-. exists agg, kids. split; [reflexivity|]. split; [apply in_map_iff; exists (k, w); auto|].
    destruct p as [|y p]; [contradiction|]. cbn. destruct (String.eqb_spec (last (dkeys kids) ""%string) k); split; intros; congruence.
  - cbn in E. destruct (H j x E) as (a & ks & E1 & E2 & E3 & E4). exists a, ks. split.
    + cbn [firstn at_path]. rewrite (In_dget k w kids ND I). exact E1.
    + split; [exact E2|]. cbn [nth_error length]. change (S (S j) =? S (length p)) with (S j =? length p). auto.
Qed.

Lemma body_drawn m : wf m -> Forall2 (fun l e => drawn m (fst e) (fst l)) (body m) (entries m).
Proof.
  induction m as [d|agg kids IH] using mask_ind'; intros W; [constructor|]. apply wf_grp in W as (ND & WK). cbn [body entries].
  assert (G : forall pre suf, kids = pre ++ suf -> Forall2 (fun l e => drawn (MGrp agg kids) (fst e) (fst l)) (hang_all (map (fun p => ([], fst p) :: body (snd p)) suf))
     (flat_map (fun p => ([fst p], snd p) :: map (fun q => (fst p :: fst q, snd q)) (entries (snd p))) suf)).
  2:{ apply (G []). reflexivity. }
  intros pre suf. revert pre. induction suf as [|(k & w) suf IHs]; intros pre E; [constructor|].
  assert (I : In (k, w) kids) by (rewrite E; apply in_or_app; right; left; reflexivity).
  rewrite Forall_forall in IH, WK. pose proof (IH _ I (WK _ I)) as Hw. cbn [snd] in Hw.
  assert (LST : forall b, b = String.eqb (last (dkeys kids) ""%string) k -> Forall2 (fun l e => drawn (MGrp agg kids) (fst e) (fst l)) (hang b (([], k) :: body w))
     (([k], w) :: map (fun q => (k :: fst q, snd q)) (entries w))).
  { intros b Hb. unfold hang. cbn [fst snd]. constructor; [cbn [fst]; rewrite Hb; eapply drawn_head; eauto|]. rewrite Hb.
    assert (NE : forall e, In e (entries w) -> fst e <> []) by (intros e; apply entries_ne).
    clear - Hw ND I NE. induction Hw as [|l e ls es Hle _ IHw]; cbn [map]; constructor; [|apply IHw; intros; apply NE; right; assumption].
    cbn [fst]. eapply drawn_cons; eauto. apply NE. left; reflexivity. }
  destruct suf as [|q suf].
  - cbn [map hang_all flat_map]. rewrite app_nil_r. apply LST. symmetry. apply String.eqb_eq. rewrite E. unfold dkeys. rewrite map_app. cbn. apply last_last.
  - change (map (fun p => ([], fst p) :: body (snd p)) ((k, w) :: q :: suf)) with ((([], k) :: body w) :: map (fun p => ([], fst p) :: body (snd p)) (q :: suf)).
    change (flat_map (fun p => ([fst p], snd p) :: map (fun q => (fst p :: fst q, snd q)) (entries (snd p))) ((k, w) :: q :: suf)) with
      ((([k], w) :: map (fun q => (k :: fst q, snd q)) (entries w)) ++ flat_map (fun p => ([fst p], snd p) :: map (fun q => (fst p :: fst q, snd q)) (entries (snd p))) (q :: suf)).
    assert (HA : forall b bs, bs <> [] -> hang_all (b :: bs) = hang false b ++ hang_all bs) by (intros b [|]; [contradiction|reflexivity]).
    rewrite HA by discriminate. apply Forall2_app; [|apply (IHs (pre ++ [(k, w)])); rewrite <- app_assoc; exact E]. apply LST. symmetry. apply String.eqb_neq. intros EL.
    rewrite E in EL, ND. unfold dkeys in EL, ND. rewrite map_app in EL, ND. cbn [map fst] in EL, ND. clear - EL ND. apply NoDup_remove_2 in ND. apply ND. apply in_or_app. right.
    rewrite <- EL. clear ND EL. replace (map fst pre ++ k :: fst q :: map fst suf) with ((map fst pre ++ [k]) ++ fst q :: map fst suf) by (rewrite <- app_assoc; reflexivity).
    assert (LA : forall (u : list string) x v d, last (u ++ x :: v) d = last (x :: v) d). { induction u as [|y u IHu]; intros x v d; [reflexivity|]. transitivity (last (u ++ x :: v) d); [destruct u; reflexivity | apply IHu]. }
    rewrite LA. assert (LI : forall (v : list string) x d, In (last (x :: v) d) (x :: v)). { induction v as [|y v IHv]; intros x d; [left; reflexivity|]. right. apply IHv. }
    apply LI.
Qed.

(** C165: the first line names the class and the agg_op; then every mask of the tree once, in depth-first order, at its depth. *)
Theorem C165_text : forall agg kids o, means agg o -> wf (MGrp agg kids) -> exists ls,
  group_lines (MGrp agg kids) = Ok (([], "MaskGroup(agg_op=" ++ agg_name o ++ ")")%string :: ls) /\
  Forall2 (fun l e => snd l = last_name (fst e) /\ drawn (MGrp agg kids) (fst e) (fst l)) ls (entries (MGrp agg kids)).
Proof.
  intros agg kids o HM W. exists (body (MGrp agg kids)). split.
  - unfold group_lines. rewrite (proj2 (agg_op_means agg o) HM). cbn [bind]. rewrite make_tree_lines. reflexivity.
  - pose proof (body_names (MGrp agg kids)) as N. pose proof (body_drawn (MGrp agg kids) W) as D. revert N D. generalize (body (MGrp agg kids)) (entries (MGrp agg kids)).
    intros ls es N D. induction D as [|l e ls es Hd _ IH]; [constructor|]. cbn in N. injection N as N1 N2. constructor; auto.
Qed.

(** Only the top level's agg_op is shown: groups that differ in a nested one print alike. *)
Example C165_nested_agg : group_lines (MGrp "or" [("a", MGrp "and" [("b", MArr [true])])])%string = group_lines (MGrp "or" [("a", MGrp "or" [("b", MArr [true])])])%string.
Proof. reflexivity. Qed.
Example C165_case : group_lines (MGrp "or" [("a", MGrp "and" [("b", MArr [true]); ("latent", MArr [true])]); ("c", MArr [false])])%string =
  Ok [([], "MaskGroup(agg_op=OR)"); ([FORK], "a"); ([CONTINUE; FORK], "b"); ([CONTINUE; END], "latent"); ([END], "c")]%string.
Proof. reflexivity. Qed.

(** C165, [repr]: the names in order, each in double quotes, separated by a comma and a blank, then the aggregation; text written out character by character. *)
Definition dquote : string := String (Ascii.Ascii false true false false false true false false) "".
Fixpoint listed (names : list string) : string :=
  match names with
  | [] => ""
  | [k] => dquote ++ k ++ dquote
  | k :: names => dquote ++ k ++ dquote ++ ", " ++ listed names
  end.
Definition written (o : aggop) (s : string) : Prop := match o with AND => s = "AND" | OR => s = "OR" | NONE => s = "NONE" end%string.
Lemma string_app_assoc a b c : ((a ++ b) ++ c = a ++ (b ++ c))%string.
Proof. induction a; cbn; [reflexivity | rewrite IHa; reflexivity]. Qed.
Theorem C165_repr : forall agg kids o s, means agg o -> written o s ->
  group_repr (MGrp agg kids) = Ok ("MaskGroup(masks=[" ++ listed (dkeys kids) ++ "], agg_op=" ++ s ++ ")")%string /\
  exists ls, group_lines (MGrp agg kids) = Ok (([], "MaskGroup(agg_op=" ++ s ++ ")")%string :: ls).
Proof.
  intros agg kids o s HM HW. assert (EN : agg_name o = s) by (destruct o; cbn in *; congruence). split.
  - unfold group_repr. rewrite (proj2 (agg_op_means agg o) HM). cbn [bind]. rewrite EN. do 2 f_equal.
    assert (EL : forall l, String.concat ", " (map quote l) = listed l); [|rewrite EL; reflexivity].
    induction l as [|k [|k' l] IH]; [reflexivity | reflexivity|].
    change (String.concat ", " (map quote (k :: k' :: l))) with (quote k ++ ", " ++ String.concat ", " (map quote (k' :: l)))%string. rewrite IH.
    change (listed (k :: k' :: l)) with (dquote ++ k ++ dquote ++ ", " ++ listed (k' :: l))%string. unfold quote. cbn [append dquote].
    f_equal. rewrite string_app_assoc. reflexivity.
  - eexists. unfold group_lines. rewrite (proj2 (agg_op_means agg o) HM). cbn [bind]. rewrite make_tree_lines, EN. reflexivity.
Qed.

(** C166: one entry per top-level mask, in order; nested groups are aggregated. *)
Theorem C166_to_dict : forall n agg kids, (forall k v, In (k, v) kids -> aggregable n v) ->
  exists d, to_dict (MGrp agg kids) = Ok d /\ map fst d = dkeys kids /\
    forall j k v, nth_error kids j = Some (k, v) -> exists b, nth_error d j = Some (k, b) /\ length b = n /\ forall i, nth_error b i = Some true <-> true_at i v.
Proof.
  intros n agg kids H. cbn [to_dict]. induction kids as [|(k & v) kids IH].
  - exists []. split; [reflexivity|]. split; [reflexivity|]. intros [|j] k v E; discriminate.
  - destruct IH as (d & E & K & HJ); [intros; eapply H; right; eassumption|]. destruct (data_complete v n) as (b & Eb & Lb); [eapply H; left; reflexivity|].
    exists ((k, b) :: d). cbn [mapM fst snd]. rewrite Eb. cbn [bind]. rewrite E. split; [reflexivity|]. split; [cbn; f_equal; exact K|].
    intros [|j] k' v' Ej; [|exact (HJ j k' v' Ej)]. injection Ej as <- <-. exists b. split; [reflexivity|]. split; [exact Lb|]. apply data_sound. exact Eb.
Qed.

(** A group containing an empty group, or one without aggregation, has none. *)
Theorem C166_errors : forall agg kids,
  (forall pre k v suf, kids = pre ++ (k, v) :: suf -> (forall k' v', In (k', v') pre -> exists d, data v' = Ok d) -> forall e, data v = Err e -> to_dict (MGrp agg kids) = Err e).
Proof.
  intros agg kids pre k v suf -> HP e He. cbn [to_dict]. induction pre as [|(k' & v') pre IH]; cbn [app mapM fst snd].
  - rewrite He. reflexivity.
  - destruct (HP k' v' (or_introl eq_refl)) as (d & Ed). rewrite Ed. cbn [bind]. rewrite IH by (intros; eapply HP; right; eassumption). reflexivity.
Qed.
Example C166_case : to_dict (MGrp "none" [("a", MGrp "and" [("b", MArr [true; true]); ("c", MArr [true; false])]); ("d", MArr [false; true])])%string =
  Ok [("a", [true; false]); ("d", [false; true])]%string /\ to_dict (MGrp "or" [("a", MGrp "none" [("b", MArr [true])])])%string = Err ValueError.
Proof. split; reflexivity. Qed.

Print Assumptions C165_text.
Print Assumptions C166_to_dict.
Print Assumptions C166_errors.

Print Assumptions C165_repr.
