(** Properties C44-C48: the hierarchy of the hard process. *)
From Verif Require Import Prelude Dict Keys MaskTypes SpecMask Mask MaskProofs SpecArray SpecAdj Arrays Adjacency AdjacencyProofs Composite Descend SpecHard Hard HardProofs SpecHier Hierarchy HierProofs TreeProofs HierEvent HierMain HierOrder P_Hard.

(** * C44 *)

(** The parent-to-children map computed from an ancestry matrix (row i: the
    descendants of parton i) links p to c exactly when p is c's closest ancestor. *)
Theorem C44_parent_map : forall names rows, NoDup names -> square (length names) rows ->
  exists hard, flat_hierarchy (combine names (map MArr rows)) = Ok hard /\ NoDup (dkeys hard) /\
    (forall k kids, dget k hard = Some kids -> In k names /\ incl kids names /\ NoDup kids /\ kids <> []) /\
    forall p c, p < length names -> c < length names ->
      ((exists kids, dget (nth p names ""%string) hard = Some kids /\ In (nth c names ""%string) kids) <-> closest (anc_of rows) p c).
Proof.
  intros names rows ND SQ. exists (flat_of names rows). split; [apply flat_ok; assumption|].
  assert (NK : NoDup (dkeys (flat_of names rows))).
  { unfold flat_of, dkeys. rewrite map_map. cbn [fst]. apply keyat_map_NoDup; [exact ND | apply NoDup_filter, seq_NoDup|].
    intros i Hi. apply filter_In in Hi as [Hi _]. apply in_seq in Hi. lia. }
  assert (CH : forall p c, In c (child_ix rows p) <-> closest (anc_of rows) p c) by (intros p c; apply (child_ix_ok _ rows p SQ)).
  assert (LT : forall p c, closest (anc_of rows) p c -> p < length names /\ c < length names) by (intros p c; apply (link_lt names rows SQ)).
  split; [exact NK|]. split.
  - intros k kids H. apply dget_In in H. unfold flat_of in H. apply in_map_iff in H as (i & E & Hi). injection E as <- <-.
    apply filter_In in Hi as [Hi Hc]. apply in_seq in Hi. split; [apply nth_In; lia|]. split; [|split].
    + intros x Hx. apply in_map_iff in Hx as (c & <- & Hx). apply CH, LT in Hx. apply nth_In. lia.
    + apply (ch_keys_NoDup names rows ND SQ).
    + destruct (child_ix rows i); [discriminate | discriminate].
  - intros p c Hp Hc. rewrite <- CH. pose proof (hard_get names rows rows [] ND (proj1 SQ) p Hp) as HG. unfold keyat in HG at 1. rewrite HG. clear HG.
    destruct (Nat.eqb_spec (length (child_ix rows p)) 0) as [E|E].
    + apply length_zero_iff_nil in E. rewrite E. split; [intros (kids & F & _); discriminate | intros []].
    + split.
      * intros (kids & K & Hin). injection K as <-. apply in_map_iff in Hin as (c' & Ec & Hin). 
        assert (c' = c) by (apply (key_inj names ND); [apply CH, LT in Hin; lia | exact Hc | exact Ec]). subst c'. exact Hin.
      * intros Hin. eexists. split; [reflexivity|]. apply (in_map (keyat names)). exact Hin.
Qed.
Print Assumptions C44_parent_map.

(** Exactly one parent for each parton that has an ancestor. *)
Theorem C44_one_parent : forall n rows c, square n rows -> (exists a, anc_of rows a c) -> exists! p, closest (anc_of rows) p c.
Proof.
  intros n rows c SQ H. destruct (closest_exists n rows SQ c H) as (p & Hp). exists p. split; [exact Hp|]. intros q Hq. eapply closest_fun; eauto.
Qed.
Print Assumptions C44_one_parent.

(** In a strict partial order nothing lies strictly between parent and child. *)
Theorem C44_nothing_between : forall n rows p c b, square n rows ->
  (forall i j k, anc_of rows i j -> anc_of rows j k -> anc_of rows i k) ->
  closest (anc_of rows) p c -> ~ (anc_of rows p b /\ anc_of rows b c).
Proof.
  intros n rows p c b SQ TR [H1 H2] [Hb1 Hb2]. destruct (H2 b Hb2) as (k & k' & C & C' & K).
  pose proof (card_fun _ _ _ C (A_card n rows SQ p)). pose proof (card_fun _ _ _ C' (A_card n rows SQ b)).
  assert (IR : forall i, ~ anc_of rows i i) by (intros i [F _]; congruence).
  pose proof (cnt_lt n rows SQ TR IR p b Hb1). lia.
Qed.
Print Assumptions C44_nothing_between.

Example C44_case : flat_hierarchy (combine ["t"; "b:0"; "W+"; "b:1"; "q"]%string
   (map MArr [[true; false; true; true; true]; [false; true; false; false; false]; [false; false; true; false; true];
              [false; false; false; true; false]; [false; false; false; false; true]]))
  = Ok [("t", ["W+"; "b:1"]); ("W+", ["q"])]%string.
Proof. reflexivity. Qed.

(** * C45 *)

(** It terminates, whatever the ancestry: no recursion deeper than the number of hard partons. *)
Theorem C45_terminates : forall name ev n,
  event_ok n ev -> (forall z, has_colon (name z) = false) -> (forall z, name z <> "latent"%string) ->
  exists tree, forall depth, length (hard_rows ev) <= depth -> hierarchy name depth ev None = Ok tree.
Proof.
  intros name ev n Hok Hn Hl. destruct (hard_parts name ev n Hok Hn Hl) as (names & ds & E & _).
  destruct (inter_data ev n Hok) as (inter & HI & HA). destruct (any inter) eqn:EA.
  - destruct (main name ev n _ Hok Hn Hl (proj1 HA eq_refl) E) as (rs & ms & _ & _ & _ & H). eexists. exact H.
  - eexists. intros depth _. unfold hierarchy. rewrite hard_data by apply Hok. cbn [bind]. rewrite (hard_pdg ev n Hok). cbn [bind]. rewrite E. cbn [bind]. rewrite HI. cbn [bind]. rewrite EA. reflexivity.
Qed.
Print Assumptions C45_terminates.

(** Without an intermediate parton the result is hard_descendants' flat group. *)
Theorem C45_no_intermediate : forall name ev n depth,
  event_ok n ev -> (forall z, has_colon (name z) = false) -> ~ has_intermediate ev ->
  hierarchy name depth ev None = hard_descendants name ev None false true.
Proof.
  intros name ev n depth Hok Hn Hni. destruct (hard_all name ev n Hok Hn) as (kids & E & _).
  change (hard_descendants name ev None false true = Ok (MGrp "or" kids)) in E.
  destruct (inter_data ev n Hok) as (inter & HI & HA). destruct (any inter) eqn:EA; [exfalso; apply Hni, HA; reflexivity|].
  unfold hierarchy. rewrite hard_data by apply Hok. cbn [bind]. rewrite (hard_pdg ev n Hok). cbn [bind]. rewrite E. cbn [bind]. rewrite HI. cbn [bind]. rewrite EA. reflexivity.
Qed.
Print Assumptions C45_no_intermediate.

(** Handing over precomputed descendants changes nothing. *)
Theorem C45_precomputed : forall name ev depth m,
  hard_descendants name ev None false true = Ok m -> hierarchy name depth ev (Some m) = hierarchy name depth ev None.
Proof. intros name ev depth m H. unfold hierarchy. rewrite H. reflexivity. Qed.
Print Assumptions C45_precomputed.

Section Tree.
  Context (name : Z -> string) (ev : event) (n depth : nat) (desc : list (string * mask)) (tree : mask).
  (** The name of the i-th hard parton, and the link to its parent. *)
  Let key (i : nat) : string := nth i (dkeys desc) ""%string.
  Let link : nat -> nat -> Prop := closest (anc_ev ev).

  (** The whole shape of the tree. *)
  Theorem C45_tree :
    event_ok n ev -> (forall z, has_colon (name z) = false) -> (forall z, name z <> "latent"%string) -> has_intermediate ev ->
    hard_descendants name ev None false true = Ok (MGrp "or" desc) ->
    length (hard_rows ev) <= depth -> hierarchy name depth ev None = Ok tree ->
    (* the top level: the partons with children and no parent, in record order *)
    (exists rs kids, StronglySorted lt rs /\ (forall r, In r rs <-> root link r) /\ tree = MGrp "or" kids /\ dkeys kids = map key rs) /\
    (* below: under every chain of children, a group with the next children and 'latent', or an array *)
    (forall l cs, chain link l -> children link (last l 0) cs ->
       match cs with
       | [] => exists d, at_path tree (map key l) = Some (MArr d) /\ length d = n
       | _ => exists sub, at_path tree (map key l) = Some (MGrp "or" sub) /\ dkeys sub = map key cs ++ ["latent"%string]
       end) /\
    (* nothing else *)
    (forall path m, path <> [] -> at_path tree path = Some m ->
       exists l, chain link l /\ (path = map key l \/ (path = map key l ++ ["latent"%string] /\ exists c, link (last l 0) c))) /\
    (* one place per parton *)
    (forall l1 l2, chain link l1 -> chain link l2 -> last l1 0 = last l2 0 -> l1 = l2).
  Proof.
    intros Hok Hn Hl Hi Hd HF HT. split; [|split; [|split]].
    - destruct (main name ev n desc Hok Hn Hl Hi Hd) as (rs & ms & HS & HR & HM & HE). rewrite (HE depth HF) in HT. injection HT as <-.
      exists rs. eexists. split; [exact HS|]. split; [exact HR|]. split; [reflexivity|]. apply combine_fst. rewrite map_length. eapply Forall2_length'; exact HM.
    - intros l cs Hc Hch. destruct (at_chain name ev n desc Hok Hn Hl Hi Hd depth tree l HF HT Hc) as (m & Hm & HG).
      assert (EC : cs = child_ix (hrows ev (masks_of desc)) (last l 0)) by (apply (children_fun name ev n desc Hok Hn Hl Hd); exact Hch).
      destruct cs as [|c cs].
      + destruct (leaf_true name ev n desc Hok Hn Hl Hd _ m HG) as (b & -> & LB & _).
        { intros c HC. apply Hch in HC. exact HC. }
        exists b. split; assumption.
      + destruct (node_true name ev n desc Hok Hn Hl Hd _ m HG) as (sub & lat & -> & _ & HK & _).
        { exists c. apply Hch. left; reflexivity. }
        exists sub. split; [exact Hm|]. rewrite HK, EC. reflexivity.
    - intros path m Hne HP. exact (path_chain name ev n desc Hok Hn Hl Hi Hd depth tree path m HF HT Hne HP).
    - intros l1 l2 H1 H2 E. apply (chain_unique link (link_unique ev) l1 l2 0 H1 H2); [eapply chain_ne; exact H1 | eapply chain_ne; exact H2 | exact E].
  Qed.

  (** * C46 *)

  (** Parton x appears somewhere in the tree. *)
  Definition appears (x : nat) : Prop := exists path m, at_path tree (path ++ [key x]) = Some m.

  Lemma appears_chain : event_ok n ev -> (forall z, has_colon (name z) = false) -> (forall z, name z <> "latent"%string) -> has_intermediate ev ->
    hard_descendants name ev None false true = Ok (MGrp "or" desc) ->
    length (hard_rows ev) <= depth -> hierarchy name depth ev None = Ok tree ->
    forall x, x < length (hard_rows ev) -> (appears x <-> exists l, chain link l /\ last l 0 = x).
  Proof.
    intros Hok Hn Hl Hi Hd HF HT x Hx.
    destruct (desc_parts name ev n desc Hok Hn Hl Hd) as (E & EN & ND & NL & LN & LD & HD). split.
    - intros (path & m & HP). destruct (path_chain name ev n desc Hok Hn Hl Hi Hd depth tree (path ++ [key x]) m HF HT) as (l & Hc & HC); [destruct path; discriminate | exact HP|].
      exists l. split; [exact Hc|]. destruct HC as [HC|[HC _]].
      + assert (Hne : l <> []) by (eapply chain_ne; exact Hc). destruct (exists_last Hne) as (l0 & y & ->). rewrite last_last.
        rewrite map_app in HC. cbn in HC. apply app_inj_tail in HC as [_ HK].
        apply (key_inj (dkeys desc) ND); [| lia | exact (eq_sym HK)].
        pose proof (up_lt (dkeys desc) (hrows ev (masks_of desc)) (rows_ok name ev n desc Hok Hn Hl Hd)) as UL.
        apply (chain_rows name ev n desc Hok Hn Hl Hd) in Hc. apply chain_up in Hc. apply UL in Hc. rewrite rev_app_distr in Hc. inversion Hc; assumption.
      + exfalso. apply app_inj_tail in HC as [_ HK]. apply NL. rewrite <- HK. apply nth_In. lia.
    - intros (l & Hc & <-). destruct (at_chain name ev n desc Hok Hn Hl Hi Hd depth tree l HF HT Hc) as (m & Hm & _).
      assert (Hne : l <> []) by (eapply chain_ne; exact Hc). destruct (exists_last Hne) as (l0 & y & ->). rewrite last_last.
      exists (map key l0), m. rewrite map_app in Hm. exact Hm.
  Qed.

  (** What holds: when no two particles share a dead end and no parton descends
      from its own descendant, a parton appears exactly when it has a hard
      ancestor or is the closest ancestor of some parton. *)
  Theorem C46_kept_partial :
    event_ok n ev -> (forall z, has_colon (name z) = false) -> (forall z, name z <> "latent"%string) -> has_intermediate ev ->
    hard_descendants name ev None false true = Ok (MGrp "or" desc) ->
    length (hard_rows ev) <= depth -> hierarchy name depth ev None = Ok tree ->
    own_end (e_edges ev) -> (forall i j, anc_ev ev i j -> ~ anc_ev ev j i) ->
    forall x, x < length (hard_rows ev) -> (appears x <-> (exists a, anc_ev ev a x) \/ exists c, link x c).
  Proof.
    intros Hok Hn Hl Hi Hd HF HT Ho Ha x Hx. rewrite (appears_chain Hok Hn Hl Hi Hd HF HT x Hx). split.
    - intros (l & Hc & <-). pose proof (chain_ne ev l Hc) as Hne. apply chain_up in Hc. destruct (exists_last Hne) as (l0 & y & ->).
      rewrite rev_app_distr in Hc. cbn in Hc. rewrite last_last. inversion Hc as [z [Hz _] Ez|z w l' HU HL Ez]; subst; [right; exact Hz | left; exists z; apply HL].
    - intros H. apply (ev_chain name ev n desc Hok Hn Hl Hd Ho Ha). tauto.
  Qed.

  (** When moreover the ancestors of every parton form a line (each parton comes
      from one decay chain), exactly the partons with neither a hard ancestor nor a
      hard descendant are lost. *)
  Theorem C46_kept_lines_partial :
    event_ok n ev -> (forall z, has_colon (name z) = false) -> (forall z, name z <> "latent"%string) -> has_intermediate ev ->
    hard_descendants name ev None false true = Ok (MGrp "or" desc) ->
    length (hard_rows ev) <= depth -> hierarchy name depth ev None = Ok tree ->
    own_end (e_edges ev) -> (forall i j, anc_ev ev i j -> ~ anc_ev ev j i) ->
    (forall i j y, anc_ev ev i y -> anc_ev ev j y -> i = j \/ anc_ev ev i j \/ anc_ev ev j i) ->
    forall x, x < length (hard_rows ev) -> (appears x <-> (exists a, anc_ev ev a x) \/ exists d, anc_ev ev x d).
  Proof.
    intros Hok Hn Hl Hi Hd HF HT Ho Ha HLn x Hx. rewrite (C46_kept_partial Hok Hn Hl Hi Hd HF HT Ho Ha x Hx). split.
    - intros [H|(c & Hc)]; [left; exact H | right; exists c; apply Hc].
    - intros [H|H]; [left; exact H|]. destruct (anc_decide name ev n desc Hok Hn Hl Hd x) as [HA|HA]; [left; exact HA|].
      right. apply (ev_top name ev n desc Hok Hn Hl Hd Ho Ha x HLn H HA).
  Qed.

  (** * C47 *)

  Theorem C47_latent : forall l sub p d,
    event_ok n ev -> (forall z, has_colon (name z) = false) -> (forall z, name z <> "latent"%string) -> has_intermediate ev ->
    hard_descendants name ev None false true = Ok (MGrp "or" desc) ->
    length (hard_rows ev) <= depth -> hierarchy name depth ev None = Ok tree ->
    (* the group reached by a chain of partons ending at parton x, whose own mask is d *)
    chain link l -> at_path tree (map key l) = Some (MGrp "or" sub) -> nth_error desc (last l 0) = Some (p, MArr d) ->
    exists D lat,
      let child i := exists c v, link (last l 0) c /\ dget (key c) sub = Some v /\ true_at i v in
      data (MGrp "or" sub) = Ok D /\ length D = n /\ dget "latent" sub = Some (MArr lat) /\
      (forall i, nth_error D i = Some true <-> nth_error d i = Some true \/ child i) /\
      ((forall i, child i -> nth_error d i = Some true) ->
         D = d /\ forall i, nth_error lat i = Some true <-> nth_error d i = Some true /\ ~ child i).
  Proof.
    intros l sub p d Hok Hn Hl Hi Hd HF HT Hc Hsub Hp.
    destruct (desc_parts name ev n desc Hok Hn Hl Hd) as (E & EN & ND & NL & LN & LD & HD).
    destruct (at_chain name ev n desc Hok Hn Hl Hi Hd depth tree l HF HT Hc) as (m & Hm & HG). fold key in Hm.
    change (at_path tree (map key l) = Some m) in Hm. rewrite Hsub in Hm. injection Hm as <-.
    destruct (G_row name ev n desc Hok Hn Hl Hd _ _ HG) as (q & Hq).
    rewrite (mask_at name ev n desc Hok Hn Hl Hd _ q Hq) in Hp. injection Hp as _ <-.
    destruct (HD _ q Hq) as [LDx HDx].
    assert (HC : exists c, link (last l 0) c).
    { destruct (child_ix (hrows ev (masks_of desc)) (last l 0)) as [|c cs] eqn:EC.
      - pose proof (grows_leaf_inv _ _ _ _ _ _ HG EC) as F. discriminate F.
      - exists c. apply (proj2 (ch_ok name ev n desc Hok Hn Hl Hd (last l 0))). rewrite EC. left; reflexivity. }
    destruct (node_true name ev n desc Hok Hn Hl Hd _ _ HG HC) as (sub' & lat & ES & HL & HK & _ & (D & HDt & LDt) & HT' & HLat). injection ES as <-.
    exists D, lat. cbn zeta. split; [exact HDt|]. split; [exact LDt|]. split; [exact HL|].
    assert (HDd : forall i, nth_error D i = Some true <-> nth_error (nth (last l 0) (masks_of desc) []) i = Some true \/
        exists c v, link (last l 0) c /\ dget (key c) sub = Some v /\ true_at i v).
    { intros i. destruct (data_sound _ _ HDt) as [_ HS]. rewrite (HS i). apply HT'. }
    split; [exact HDd|]. intros HIn. split.
    - apply nth_error_ext. intros i. destruct (Nat.lt_ge_cases i n) as [Hlt|Hge].
      + destruct (nth_error_in_range D i) as (x & Hx); [lia|]. destruct (nth_error_in_range (nth (last l 0) (masks_of desc) []) i) as (y & Hy); [lia|].
        pose proof (HDd i) as K. rewrite Hx, Hy in *. destruct x, y; try reflexivity; exfalso.
        * destruct (proj1 K eq_refl) as [F|F]; [discriminate|]. apply HIn in F. congruence.
        * assert (F : Some false = Some true) by (apply K; left; reflexivity). discriminate F.
      + rewrite (proj2 (nth_error_None D i)), (proj2 (nth_error_None (nth (last l 0) (masks_of desc) []) i)) by lia. reflexivity.
    - intros i. rewrite HLat. split.
      + intros [Hlt K]. assert (N : ~ exists c v, link (last l 0) c /\ dget (key c) sub = Some v /\ true_at i v).
        { intros F. apply (proj1 K (HIn i F) F). }
        split; [apply K; exact N | exact N].
      + intros [K1 K2]. split; [rewrite <- LDx; apply nth_error_Some; congruence|]. tauto.
  Qed.

  (** In an event where no two particles share a dead end, the children are always
      inside the parent: so a group's data is exactly its parton's descendants. *)
  Theorem C47_exact : forall l sub p d,
    event_ok n ev -> (forall z, has_colon (name z) = false) -> (forall z, name z <> "latent"%string) -> has_intermediate ev ->
    hard_descendants name ev None false true = Ok (MGrp "or" desc) ->
    length (hard_rows ev) <= depth -> hierarchy name depth ev None = Ok tree ->
    own_end (e_edges ev) ->
    chain link l -> at_path tree (map key l) = Some (MGrp "or" sub) -> nth_error desc (last l 0) = Some (p, MArr d) ->
    data (MGrp "or" sub) = Ok d /\ exists lat, dget "latent" sub = Some (MArr lat) /\
      forall i, nth_error lat i = Some true <->
        nth_error d i = Some true /\ ~ exists c v, link (last l 0) c /\ dget (key c) sub = Some v /\ true_at i v.
  Proof.
    intros l sub p d Hok Hn Hl Hi Hd HF HT Ho Hc Hsub Hp.
    destruct (C47_latent l sub p d Hok Hn Hl Hi Hd HF HT Hc Hsub Hp) as (D & lat & H1 & H2 & H3 & H4 & H5). 
    destruct (at_chain name ev n desc Hok Hn Hl Hi Hd depth tree l HF HT Hc) as (m & Hm & HG).
    change (at_path tree (map key l) = Some m) in Hm. rewrite Hsub in Hm. injection Hm as <-.
    destruct (G_row name ev n desc Hok Hn Hl Hd _ _ HG) as (q & Hq).
    pose proof Hp as Hp'. rewrite (mask_at name ev n desc Hok Hn Hl Hd _ q Hq) in Hp'. injection Hp' as _ Ed.
    assert (HC : exists c, link (last l 0) c).
    { destruct (child_ix (hrows ev (masks_of desc)) (last l 0)) as [|c cs] eqn:EC.
      - pose proof (grows_leaf_inv _ _ _ _ _ _ HG EC) as F. discriminate F.
      - exists c. apply (proj2 (ch_ok name ev n desc Hok Hn Hl Hd (last l 0))). rewrite EC. left; reflexivity. }
    destruct (H5) as [-> HL].
    { intros i F. rewrite <- Ed. apply (proj1 (contained name ev n desc Hok Hn Hl Hd Ho (MGrp "or" sub) (last l 0) HG) HC).
      destruct (data_sound _ _ H1) as [_ HS]. apply HS, H4. right. exact F. }
    split; [exact H1|]. exists lat. split; [exact H3 | exact HL].
  Qed.

  (** * C48 *)

  (** What holds of a leaf: its parton's mask, plus the particle entering the start
      vertex of the first particle of the mask, when exactly one does. *)
  Theorem C48_leaf_exact_partial : forall l p d,
    event_ok n ev -> (forall z, has_colon (name z) = false) -> (forall z, name z <> "latent"%string) -> has_intermediate ev ->
    hard_descendants name ev None false true = Ok (MGrp "or" desc) ->
    length (hard_rows ev) <= depth -> hierarchy name depth ev None = Ok tree ->
    chain link l -> (forall c, ~ link (last l 0) c) -> nth_error desc (last l 0) = Some (p, MArr d) ->
    exists b, at_path tree (map key l) = Some (MArr b) /\ length b = n /\
      forall i, nth_error b i = Some true <-> nth_error d i = Some true \/
        exists f v w, first_true d f /\ nth_error (e_edges ev) f = Some (v, w) /\ sole_entry (e_edges ev) v i.
  Proof.
    intros l p d Hok Hn Hl Hi Hd HF HT Hc HN Hp.
    destruct (at_chain name ev n desc Hok Hn Hl Hi Hd depth tree l HF HT Hc) as (m & Hm & HG).
    destruct (G_row name ev n desc Hok Hn Hl Hd _ _ HG) as (q & Hq).
    rewrite (mask_at name ev n desc Hok Hn Hl Hd _ q Hq) in Hp. injection Hp as _ <-.
    destruct (leaf_true name ev n desc Hok Hn Hl Hd _ m HG HN) as (b & -> & LB & HB). exists b. split; [exact Hm|]. split; [exact LB | exact HB].
  Qed.
End Tree.
Print Assumptions C45_tree.
Print Assumptions C46_kept_partial.
Print Assumptions C46_kept_lines_partial.
Print Assumptions C47_latent.
Print Assumptions C47_exact.
Print Assumptions C48_leaf_exact_partial.

(** ** The demo event: b:0 is dropped, and the leaf 'b:1' holds the top *)

Lemma demo_name_latent z : demo_name z <> "latent"%string.
Proof. unfold demo_name. repeat (destruct (Z.eqb _ _); [discriminate|]). discriminate. Qed.
Lemma demo_inter : has_intermediate demo.
Proof. exists 22%Z. split; [cbn; tauto | reflexivity]. Qed.
Definition demo_desc : list (string * mask) :=
  [("t", MArr [false; false; true; false; true; true; false; true]);
   ("b:0", MArr [false; false; false; true; false; false; true; false]);
   ("W+", MArr [false; false; false; false; true; false; false; true]);
   ("b:1", MArr [false; false; false; false; false; true; false; false])]%string.
Definition demo_tree : mask :=
  MGrp "or" [("t", MGrp "or" [("W+", MArr [false; false; true; false; true; false; false; true]);
                              ("b:1", MArr [false; false; true; false; false; true; false; false]);
                              ("latent", MArr [false; false; false; false; false; false; false; false])])]%string.
Lemma demo_desc_ok : hard_descendants demo_name demo None false true = Ok (MGrp "or" demo_desc).
Proof. reflexivity. Qed.
Lemma demo_tree_ok : hierarchy demo_name 4 demo None = Ok demo_tree.
Proof. reflexivity. Qed.

Definition C46_full : Prop := forall name ev n depth desc tree,
  event_ok n ev -> (forall z, has_colon (name z) = false) -> (forall z, name z <> "latent"%string) -> has_intermediate ev ->
  hard_descendants name ev None false true = Ok (MGrp "or" desc) ->
  length (hard_rows ev) <= depth -> hierarchy name depth ev None = Ok tree ->
  forall x, x < length (hard_rows ev) -> appears desc tree x.

(** The b quark produced next to the top (record 3) is nowhere in the hierarchy. *)
Theorem C46_refuted : ~ C46_full.
Proof.
  intros H. assert (L : length (hard_rows demo) <= 4) by (cbn; lia).
  destruct (H demo_name demo 8 4 _ _ demo_ok demo_name_ok demo_name_latent demo_inter demo_desc_ok L demo_tree_ok 1) as (path & m & HP); [cbn; lia|].
  destruct path as [|a [|b [|c path]]]; cbn [app at_path demo_tree dget] in HP.
  - discriminate HP.
  - destruct (String.eqb a "t"); discriminate HP.
  - destruct (String.eqb a "t"); [|discriminate HP]. cbn [app at_path dget] in HP.
    destruct (String.eqb b "W+"); [discriminate HP|]. destruct (String.eqb b "b:1"); [discriminate HP|]. destruct (String.eqb b "latent"); discriminate HP.
  - destruct (String.eqb a "t"); [|discriminate HP]. cbn [app at_path dget] in HP.
    destruct (String.eqb b "W+"); [discriminate HP|]. destruct (String.eqb b "b:1"); [discriminate HP|]. destruct (String.eqb b "latent"); discriminate HP.
Qed.
Print Assumptions C46_refuted.

Definition C48_full : Prop := forall name ev n depth desc tree path k d b,
  event_ok n ev -> (forall z, has_colon (name z) = false) -> (forall z, name z <> "latent"%string) -> has_intermediate ev ->
  hard_descendants name ev None false true = Ok (MGrp "or" desc) ->
  length (hard_rows ev) <= depth -> hierarchy name depth ev None = Ok tree ->
  at_path tree (path ++ [k]) = Some (MArr b) -> dget k desc = Some (MArr d) -> b = d.

(** The leaf 'b:1' of the demo event holds record 2, the top, besides the b. *)
Theorem C48_refuted : ~ C48_full.
Proof.
  intros H. assert (L : length (hard_rows demo) <= 4) by (cbn; lia).
  pose proof (H demo_name demo 8 4 _ _ ["t"%string] "b:1"%string _ _ demo_ok demo_name_ok demo_name_latent demo_inter demo_desc_ok L demo_tree_ok eq_refl eq_refl) as F.
  discriminate F.
Qed.
Print Assumptions C48_refuted.

(** The hypotheses are met by the demo event: t (row 0) is a root with children 2 and 3. *)
Lemma demo_row0 : nth_error (hard_rows demo) 0 = Some 2. Proof. reflexivity. Qed.
Example C45_case : chain (closest (anc_ev demo)) [0; 2] /\ own_end (e_edges demo) /\
  (forall i j, anc_ev demo i j -> ~ anc_ev demo j i).
Proof.
  pose proof (rows_link demo_name demo 8 demo_desc demo_ok demo_name_ok demo_name_latent demo_desc_ok) as RL.
  pose proof (rows_anc demo_name demo 8 demo_desc demo_ok demo_name_ok demo_name_latent demo_desc_ok) as RA.
  set (rows := hrows demo (masks_of demo_desc)) in *.
  assert (ER : rows = [[true; false; true; true]; [false; true; false; false]; [false; false; true; false]; [false; false; false; true]]) by reflexivity.
  assert (SQ : square 4 rows) by (rewrite ER; split; [reflexivity | repeat constructor]).
  assert (CH : forall i c, In c (child_ix rows i) <-> closest (anc_of rows) i c) by (intros i c; apply (child_ix_ok _ rows i SQ)).
  assert (C0 : child_ix rows 0 = [2; 3]) by reflexivity. assert (C1 : child_ix rows 1 = []) by reflexivity.
  assert (C2 : child_ix rows 2 = []) by reflexivity. assert (C3 : child_ix rows 3 = []) by reflexivity.
  assert (LT : forall i c, closest (anc_of rows) i c -> i < 4) by (intros i c [[_ K] _]; exact (proj1 (entry_lt _ _ _ _ _ SQ K))).
  split; [|split].
  - exists 0. split; [split|].
    + exists 2. apply RL, CH. rewrite C0. left; reflexivity.
    + intros p Hp. apply RL in Hp. pose proof (LT _ _ Hp). apply CH in Hp. destruct p as [|[|[|[|p]]]]; [rewrite C0 in Hp | rewrite C1 in Hp | rewrite C2 in Hp | rewrite C3 in Hp | lia]; cbn in Hp; intuition lia.
    + apply (D_cons _ 0 2 [2]); [apply RL, CH; rewrite C0; left; reflexivity | constructor].
  - intros p q a b c Hp Hq Hs. unfold demo in *. cbn [e_edges] in *.
    assert (S2 : src_of [(0, 2); (1, 2); (2, 3); (2, 4); (3, 5); (3, 6); (4, 7); (5, 8)]%Z 2%Z) by (exists 3%Z; cbn; tauto).
    do 8 (destruct p as [|p]; [cbn in Hp; injection Hp as <- <-; do 8 (destruct q as [|q]; [cbn in Hq; injection Hq; intros; try subst; first [reflexivity | discriminate | contradiction]|]); destruct q; discriminate|]). destruct p; discriminate.
  - intros i j H1 H2. apply RA in H1, H2. pose proof (entry_lt _ _ _ _ _ SQ (proj2 H1)). destruct H1 as [N1 H1], H2 as [N2 H2]. rewrite ER in H1, H2. unfold entry in *.
    destruct i as [|[|[|[|i]]]], j as [|[|[|[|j]]]]; cbn in *; try discriminate; lia.
Qed.
