(** What the hierarchy of an event contains. *)
From Verif Require Import Prelude Dict Keys MaskTypes SpecMask Mask MaskProofs SpecArray SpecAdj Arrays ArraysProofs Composite SpecComposite CompositeProofs Adjacency AdjacencyProofs Descend DescendProofs SpecHard Hard HardProofs SpecHier Hierarchy HierProofs TreeProofs HierEvent.

Lemma grows_fun names rows ds es j m : grows names rows ds es j m -> forall m', grows names rows ds es j m' -> m = m'.
Proof.
  intros H. induction H as [j Hj E|j ms xs Hj E L HG IH Hx LX]; intros m' H'.
  - inversion H' as [j' Hj' E'|j' ms' xs' Hj' E' L' HG' Hx' LX']; subst; [reflexivity | contradiction].
  - inversion H' as [j' Hj' E'|j' ms' xs' Hj' E' L' HG' Hx' LX']; subst; [contradiction|].
    assert (EM : ms = ms').
    { clear -IH HG' L L'. revert ms ms' L L' IH HG'. induction (child_ix rows j) as [|c cs IHc]; intros [|m ms] [|m' ms'] L L' IH HG'; cbn in *; try discriminate; auto.
      f_equal; [apply (IH c m); auto|]. apply IHc; [congruence | congruence | intros; eapply IH; eauto | intros; eapply HG'; eauto]. }
    subst ms'. rewrite Hx in Hx'. injection Hx' as <-. reflexivity.
Qed.

Lemma Forall2_grows_fun names rows ds es l ms : Forall2 (grows names rows ds es) l ms -> forall ms', Forall2 (grows names rows ds es) l ms' -> ms = ms'.
Proof.
  induction 1 as [|j m l ms H HF IH]; intros ms' H'; inversion H' as [|? m' ? ms2 Hm HF2]; subst; [reflexivity|].
  f_equal; [eapply grows_fun; eauto | apply IH; exact HF2].
Qed.

(** Positions of a leaf mask. *)
Lemma count_one (es : edges) v : Nat.eqb (count_true (map (fun e => Z.eqb (snd e) v) es)) 1 = true <-> exists e, sole_entry es v e.
Proof.
  rewrite Nat.eqb_eq, <- positions_length. set (ps := positions _).
  assert (HP : forall i, In i ps <-> exists a, nth_error es i = Some (a, v)).
  { intros i. unfold ps. rewrite positions_In, nth_error_map'. destruct (nth_error es i) as [[a b]|]; cbn.
    - split; [intros E; injection E as E; apply Z.eqb_eq in E; subst; eauto | intros (a' & E); injection E as -> ->; rewrite Z.eqb_refl; reflexivity].
    - split; [discriminate | intros (a' & E); discriminate]. }
  assert (ND : NoDup ps) by (apply lt_sorted_NoDup, positions_sorted).
  split.
  - intros L. destruct ps as [|e [|? ?]]; try discriminate. exists e. split; [apply HP; left; reflexivity|].
    intros e' a He. assert (H : In e' [e]) by (apply HP; eauto). destruct H as [->|[]]. reflexivity.
  - intros (e & H1 & H2). apply HP in H1. assert (HA : forall x, In x ps -> x = e) by (intros x Hx; apply HP in Hx as (a & Ha); eapply H2; exact Ha).
    destruct ps as [|x [|y ps]]; [destruct H1 | reflexivity|]. exfalso. inversion ND as [|? ? Hx ND']; subst. apply Hx.
    rewrite (HA x) by (left; reflexivity). rewrite (HA y) by (right; left; reflexivity). left; reflexivity.
Qed.

Lemma compress_first (d : list bool) (l : list Z) v r : compress d l = v :: r -> exists f, first_true d f /\ nth_error l f = Some v.
Proof.
  revert l; induction d as [|b d IH]; intros [|x l] H; cbn in H; try discriminate; [destruct b; discriminate|]. destruct b.
  - injection H as -> _. exists 0. split; [split; [reflexivity | intros; lia] | reflexivity].
  - destruct (IH l H) as (f & [H1 H2] & H3). exists (S f). split; [split; [exact H1|] | exact H3]. intros [|i] Hi; [discriminate|]. apply H2 in Hi. lia.
Qed.
Lemma first_true_fun d f g : first_true d f -> first_true d g -> f = g.
Proof. intros [H1 H2] [H3 H4]. apply H2 in H3. apply H4 in H1. lia. Qed.

Lemma leaf_bits_at es d i : length d = length es ->
  (nth_error (leaf_bits es d) i = Some true <-> nth_error d i = Some true \/ exists f v w, first_true d f /\ nth_error es f = Some (v, w) /\ sole_entry es v i).
Proof.
  intros L. unfold leaf_bits. destruct (compress d (map fst es)) as [|v r] eqn:E.
  - split; [auto|]. intros [H|(f & v & w & [Hf _] & He & _)]; [exact H|].
    assert (F : In v (compress d (map fst es))) by (apply compress_In; exists f; split; [exact Hf | rewrite nth_error_map', He; reflexivity]).
    rewrite E in F. destruct F.
  - destruct (compress_first _ _ _ _ E) as (f & Hf & Hv). rewrite nth_error_map' in Hv. destruct (nth_error es f) as [[v' w]|] eqn:Ee; [|discriminate]. cbn in Hv. injection Hv as ->.
    destruct (Nat.eqb _ 1) eqn:C.
    + apply count_one in C as (e & He). rewrite map2_orb_true with (n := length es) by (auto; rewrite map_length; reflexivity).
      rewrite nth_error_map'. split.
      * intros [H|H]; [auto|]. right. exists f, v, w. split; [exact Hf|]. split; [exact Ee|].
        destruct (nth_error es i) as [[a b]|] eqn:Ei; [|discriminate]. cbn in H. injection H as H. apply Z.eqb_eq in H. subst b.
        destruct He as [He1 He2]. rewrite (He2 i a Ei). split; assumption.
      * intros [H|(f' & v' & w' & Hf' & Hv' & (a & Ha) & _)]; [auto|]. right. rewrite (first_true_fun _ _ _ Hf' Hf) in Hv'. rewrite Ee in Hv'. injection Hv' as <- <-.
        rewrite Ha. cbn. rewrite Z.eqb_refl. reflexivity.
    + split; [auto|]. intros [H|(f' & v' & w' & Hf' & Hv' & HS)]; [exact H|]. exfalso.
      rewrite (first_true_fun _ _ _ Hf' Hf) in Hv'. rewrite Ee in Hv'. injection Hv' as <- <-.
      assert (T : Nat.eqb (count_true (map (fun e => Z.eqb (snd e) v) es)) 1 = true) by (apply count_one; eauto). congruence.
Qed.

Lemma map2_xorb_true x y n i : length x = n -> length y = n -> (nth_error (map2 xorb x y) i = Some true <-> (nth_error x i = Some true <-> nth_error y i <> Some true) /\ i < n).
Proof.
  intros Lx Ly. rewrite map2_nth. destruct (Nat.lt_ge_cases i n) as [H|H].
  - destruct (nth_error_in_range x i) as (a & ->); [lia|]. destruct (nth_error_in_range y i) as (b & ->); [lia|].
    destruct a, b; cbn; split; try discriminate; intros K; try (split; [split; congruence | exact H]); try reflexivity; exfalso; destruct K as [K _].
    + exact (proj1 K eq_refl eq_refl).
    + assert (F : Some false = Some true) by (apply K; discriminate). discriminate F.
  - rewrite (proj2 (nth_error_None x i)) by lia. split; [discriminate | lia].
Qed.

Section Event.
  Context (name : Z -> string) (ev : event) (n : nat) (desc : list (string * mask)).
  Hypothesis Hok : event_ok n ev.
  Hypothesis Hname : forall z, has_colon (name z) = false.
  Hypothesis Hlat : forall z, name z <> "latent"%string.
  Hypothesis Hint : has_intermediate ev.
  Hypothesis Hdesc : hard_descendants name ev None false true = Ok (MGrp "or" desc).
  Let names := dkeys desc.
  Let key (i : nat) := nth i (dkeys desc) ""%string.
  Let link := closest (anc_ev ev).
  Definition masks_of : list (list bool) := map (fun p => match snd p with MArr d => d | MGrp _ _ => [] end) desc.
  Let rows := hrows ev masks_of.
  Let G := grows names rows masks_of (e_edges ev).

  Lemma desc_parts : desc = combine names (map MArr masks_of) /\
    names = pdgs_to_keys (map name (map (fun i => nth i (e_pdg ev) 0%Z) (hard_rows ev))) /\
    NoDup names /\ ~ In "latent"%string names /\ length names = length (hard_rows ev) /\ length masks_of = length (hard_rows ev) /\
    forall j p, nth_error (hard_rows ev) j = Some p -> length (nth j masks_of []) = n /\
      forall i, nth_error (nth j masks_of []) i = Some true <-> i = p \/ descends (e_edges ev) p i.
  Proof.
    destruct (hard_parts name ev n Hok Hname Hlat) as (ns & ds & E & EN & ND & NL & LN & LD & HD).
    rewrite Hdesc in E. injection E as E.
    assert (K : names = ns) by (unfold names; rewrite E; apply combine_fst; rewrite map_length; congruence).
    assert (M : masks_of = ds).
    { unfold masks_of. rewrite E.
      assert (Q : forall (l : list string) (x : list (list bool)), length l = length x -> map (fun p => match snd p with MArr d => d | MGrp _ _ => [] end) (combine l (map MArr x)) = x).
      { clear. induction l as [|a l IH]; intros [|d x] L; cbn in *; try discriminate; auto. f_equal. apply IH. congruence. }
      clear -Q LN LD. apply Q. congruence. }
    rewrite K, M. split; [exact E|]. repeat (split; [assumption|]). exact HD.
  Qed.

  Lemma rows_ok : square (length names) rows.
  Proof. destruct desc_parts as (_ & _ & _ & _ & LN & LD & HD). apply (hrows_square ev n Hok names masks_of); assumption. Qed.
  Lemma rows_anc i j : anc_of rows i j <-> anc_ev ev i j.
  Proof. destruct desc_parts as (_ & _ & _ & _ & LN & LD & HD). apply (hrows_anc ev n Hok names masks_of LN LD HD). Qed.
  Lemma rows_link i j : closest (anc_of rows) i j <-> link i j.
  Proof. split; apply closest_ext; intros x y; [|symmetry]; apply rows_anc. Qed.
  Lemma masks_all : Forall (fun d => length d = length (e_edges ev)) masks_of /\ Forall (fun d => In true d) masks_of.
  Proof.
    destruct desc_parts as (_ & _ & _ & _ & LN & LD & HD). pose proof (ds_all ev n names masks_of LN LD HD) as A. pose proof Hok as (LE & _).
    split; apply Forall_forall; intros d H; apply A in H; [rewrite LE|]; apply H.
  Qed.

  Lemma main : exists rs ms, StronglySorted lt rs /\ (forall r, In r rs <-> root link r) /\ Forall2 G rs ms /\
    forall fuel, length (hard_rows ev) <= fuel -> hierarchy name fuel ev None = Ok (MGrp "or" (combine (map key rs) ms)).
  Proof.
    destruct desc_parts as (E & EN & ND & NL & LN & LD & HD). destruct masks_all as [A1 A2].
    assert (T : forall fuel, length (hard_rows ev) <= fuel -> exists ms, hierarchy name fuel ev None = Ok (MGrp "or" (combine (map key (roots_ix names rows)) ms)) /\ Forall2 G (roots_ix names rows) ms).
    { intros fuel HF. destruct (tree_ok names rows masks_of (e_edges ev) ND NL rows_ok (eq_trans LD (eq_sym LN)) A1 A2 fuel) as (ms & HT & HM); [lia|].
      exists ms. split; [|exact HM]. rewrite (hier_run name ev n Hok names masks_of ND LN LD HD fuel EN Hint); [exact HT|]. rewrite <- E. exact Hdesc. }
    destruct (T (length (hard_rows ev)) (le_n _)) as (ms & _ & HM). exists (roots_ix names rows), ms.
    split; [|split; [|split; [exact HM|]]].
    - unfold roots_ix. apply StronglySorted_filter, StronglySorted_filter, seq_sorted.
    - intros r. rewrite (roots_ix_ok names rows masks_of (e_edges ev) ND rows_ok (eq_trans LD (eq_sym LN))). unfold root. split; intros [(c & Hc) H]; (split; [exists c; apply rows_link; exact Hc | intros p Hp; apply (H p), rows_link; exact Hp]).
    - intros fuel HF. destruct (T fuel HF) as (ms' & HT & HM'). rewrite HT. rewrite (Forall2_grows_fun _ _ _ _ _ _ HM _ HM'). reflexivity.
  Qed.

  Lemma link_unique p p' c : link p c -> link p' c -> p = p'.
  Proof. apply closest_fun. Qed.

  Lemma down_rows x l : down link x l <-> down (closest (anc_of rows)) x l.
  Proof. split; induction 1 as [|x y l HL Hd IH]; [constructor | econstructor; [apply rows_link; exact HL | exact IH] | constructor | econstructor; [apply rows_link; exact HL | exact IH]]. Qed.

  (** Every chain leads to what was grown for its last element. *)
  Lemma at_chain fuel tree l : length (hard_rows ev) <= fuel -> hierarchy name fuel ev None = Ok tree -> chain link l ->
    exists m, at_path tree (map key l) = Some m /\ G (last l 0) m.
  Proof.
    intros HF HT (r & Hr & Hd). destruct desc_parts as (E & EN & ND & NL & LN & LD & HD). destruct masks_all as [A1 A2].
    destruct main as (rs & ms & HS & HR & HM & HE). rewrite (HE fuel HF) in HT. injection HT as <-.
    apply HR in Hr as Hin. destruct (Forall2_combine_In _ _ _ HM) as [HM1 HM2]. destruct (HM1 r Hin) as (m & Hm & HG).
    apply down_rows in Hd. destruct (at_down names rows masks_of (e_edges ev) ND rows_ok _ _ Hd m HG) as (m' & H1 & H2).
    exists m'. split; [|exact H2].
    assert (HD' : l = r :: tl l) by (destruct Hd; reflexivity). rewrite HD'. cbn [map at_path].
    rewrite <- (app_nil_r (combine (map key rs) ms)).
    rewrite (dget_combine_nth key rs ms r m); [exact H1 | | exact Hm].
    apply keyat_map_NoDup; [exact ND | apply lt_sorted_NoDup; exact HS|]. intros i Hi. apply HR in Hi as [(c & Hc) _]. apply rows_link in Hc.
    apply (link_lt names rows rows_ok) in Hc. apply Hc.
  Qed.

  Lemma path_chain fuel tree path m : length (hard_rows ev) <= fuel -> hierarchy name fuel ev None = Ok tree -> path <> [] -> at_path tree path = Some m ->
    exists l, chain link l /\ (path = map key l \/ (path = map key l ++ ["latent"%string] /\ exists c, link (last l 0) c)).
  Proof.
    intros HF HT Hne HP. destruct desc_parts as (E & EN & ND & NL & LN & LD & HD).
    destruct main as (rs & ms & HS & HR & HM & HE). rewrite (HE fuel HF) in HT. injection HT as <-.
    destruct path as [|k path]; [congruence|]. cbn [at_path] in HP. destruct (dget k _) as [v|] eqn:Eg; [|discriminate]. apply dget_In in Eg.
    apply (combine_in_map names) in Eg as (r & Hr & ->). destruct (Forall2_combine_In _ _ _ HM) as [_ HM2]. pose proof (HM2 _ _ Hr) as HG.
    destruct (at_any names rows masks_of (e_edges ev) rows_ok path r v m HG HP) as (l & Hd & HC).
    exists l. split; [exists r; split; [apply HR; eapply in_combine_l; exact Hr | apply down_rows; exact Hd]|].
    assert (HD' : map key l = key r :: map key (tl l)) by (destruct Hd; reflexivity). rewrite HD'.
    destruct HC as [[-> _]|(-> & Hch & _)]; [left; reflexivity|]. right. split; [reflexivity|].
    destruct (child_ix rows (last l 0)) as [|c cs] eqn:EC; [congruence|]. exists c. apply rows_link. apply (ch_link names rows rows_ok). rewrite EC. left; reflexivity.
  Qed.

  Lemma chain_up' l : chain link l -> up link (rev l).
  Proof. apply chain_up. Qed.
  Lemma chain_ne l : chain link l -> l <> [].
  Proof. intros (r & _ & Hd). destruct Hd; discriminate. Qed.

  Lemma ch_ok x : children link x (child_ix rows x).
  Proof.
    destruct (child_ix_ok (length names) rows x rows_ok) as [H1 H2]. split; [exact H1|]. intros c. rewrite H2. apply rows_link.
  Qed.
  Lemma children_fun x cs : children link x cs -> cs = child_ix rows x.
  Proof.
    intros [H1 H2]. destruct (ch_ok x) as [H3 H4]. assert (HI : forall c, In c cs <-> In c (child_ix rows x)) by (intros c; rewrite H2, H4; reflexivity).
    clear H2 H4. revert HI H3. generalize (child_ix rows x). induction H1 as [|a cs S1 IH F1]; intros l HI S2.
    - destruct l as [|b l]; [reflexivity|]. exfalso. apply (HI b). left; reflexivity.
    - destruct S2 as [|b l S2 F2]; [exfalso; apply (HI a); left; reflexivity|].
      rewrite Forall_forall in F1, F2.
      assert (a = b).
      { assert (Ha : In a (b :: l)) by (apply HI; left; reflexivity). assert (Hb : In b (a :: cs)) by (apply HI; left; reflexivity).
        destruct Ha as [->|Ha]; [reflexivity|]. destruct Hb as [->|Hb]; [reflexivity|]. apply F2 in Ha. apply F1 in Hb. lia. }
      subst b. f_equal. apply IH; [|exact S2]. intros c. split; intros Hc.
      + assert (K : In c (a :: l)) by (apply HI; right; exact Hc). destruct K as [->|K]; [|exact K]. apply F1 in Hc. lia.
      + assert (K : In c (a :: cs)) by (apply HI; right; exact Hc). destruct K as [->|K]; [|exact K]. apply F2 in Hc. lia.
  Qed.

  (** ** Nodes *)
  Lemma node_parts x m : G x m -> (exists c, link x c) -> exists ms xs,
    m = MGrp "or" (combine (map key (child_ix rows x)) ms ++ [("latent"%string, MArr (map2 xorb xs (nth x masks_of [])))]) /\
    length ms = length (child_ix rows x) /\ (forall c v, In (c, v) (combine (child_ix rows x) ms) -> G c v) /\
    data (MGrp "or" (combine (map key (child_ix rows x)) ms)) = Ok xs /\ length xs = n.
  Proof.
    intros HG (c & Hc). assert (Hne : child_ix rows x <> []).
    { intros E. apply (proj2 (ch_ok x)) in Hc. rewrite E in Hc. exact Hc. }
    destruct (grows_node_inv names rows masks_of (e_edges ev) x m HG Hne) as (sub & lat & ms & xs & -> & -> & -> & L & HK & Hx & LX).
    exists ms, xs. pose proof Hok as (LE & _). rewrite LE in LX. repeat split; auto.
  Qed.

  Lemma mask_at x p : nth_error (hard_rows ev) x = Some p -> nth_error desc x = Some (key x, MArr (nth x masks_of [])).
  Proof.
    intros Hp. destruct desc_parts as (E & EN & ND & NL & LN & LD & HD). unfold key. 
    assert (Lx : x < length (hard_rows ev)) by (apply nth_error_Some; congruence).
    destruct (nth_error_in_range desc x) as ([k v] & Hx).
    { unfold names, dkeys in LN. rewrite map_length in LN. lia. }
    rewrite Hx. assert (Hk : nth x (dkeys desc) ""%string = k) by (apply nth_error_nth; unfold dkeys; rewrite nth_error_map', Hx; reflexivity).
    rewrite Hk. assert (Hv : nth_error (map MArr masks_of) x = Some v).
    { rewrite E in Hx. clear -Hx. revert Hx. generalize names as l, (map MArr masks_of) as r. revert x. induction x as [|x IH]; intros [|a l] [|b r] Hx; cbn in *; try discriminate; [congruence|]. eapply IH; exact Hx. }
    rewrite nth_error_map' in Hv. destruct (nth_error masks_of x) as [d|] eqn:Ed; [|discriminate]. cbn in Hv. injection Hv as <-.
    rewrite (nth_error_nth _ _ _ Ed). reflexivity.
  Qed.

  Lemma linked_row x : (exists c, link x c) -> exists p, nth_error (hard_rows ev) x = Some p.
  Proof. intros (c & (_ & p & q & Hp & _) & _). eauto. Qed.
  Lemma child_row x c : link x c -> exists p, nth_error (hard_rows ev) c = Some p.
  Proof. intros ((_ & p & q & Hp & Hq & _) & _). eauto. Qed.
  Lemma G_row x m : G x m -> exists p, nth_error (hard_rows ev) x = Some p.
  Proof.
    destruct desc_parts as (E & EN & ND & NL & LN & LD & HD). intros H.
    assert (Hx : x < length names) by (destruct H; assumption). apply nth_error_in_range. lia.
  Qed.

  Lemma or_true i kids : true_at i (MGrp "or" kids) <-> exists k v, In (k, v) kids /\ true_at i v.
  Proof.
    split.
    - intros H. inversion H as [|agg ks HM HA|agg ks k v HM Hin HT]; subst; [|eauto].
      pose proof (means_fun _ _ _ HM means_or) as F. discriminate F.
    - intros (k & v & Hin & HT). eapply T_or; [exact means_or | exact Hin | exact HT].
  Qed.

  Lemma node_true x m : G x m -> (exists c, link x c) ->
    exists sub lat, m = MGrp "or" sub /\ dget "latent" sub = Some (MArr lat) /\ dkeys sub = map key (child_ix rows x) ++ ["latent"%string] /\
    (forall c, link x c -> exists v, dget (key c) sub = Some v /\ G c v) /\
    let d := nth x masks_of [] in
    let kid i := exists c v, link x c /\ dget (key c) sub = Some v /\ true_at i v in
    (exists D, data m = Ok D /\ length D = n) /\
    (forall i, true_at i m <-> nth_error d i = Some true \/ kid i) /\
    (forall i, nth_error lat i = Some true <-> i < n /\ (nth_error d i = Some true <-> ~ kid i)).
  Proof.
    intros HG Hc. destruct desc_parts as (E & EN & ND & NL & LN & LD & HD). destruct masks_all as [A1 A2]. pose proof Hok as (LE & _).
    destruct (node_parts x m HG Hc) as (ms & xs & -> & L & HK & Hx & LX).
    destruct (linked_row x Hc) as (p & Hp). destruct (HD x p Hp) as [LDx _].
    set (cs := child_ix rows x) in *. set (lat := map2 xorb xs (nth x masks_of [])).
    assert (NC : NoDup (map key cs)) by (apply (ch_keys_NoDup names rows ND rows_ok)).
    assert (NLc : ~ In "latent"%string (map key cs)).
    { intros F. apply in_map_iff in F as (c & Ec & Hcc). apply (proj2 (ch_ok x)) in Hcc. apply child_row in Hcc as (q & Hq).
      apply NL. rewrite <- Ec. apply nth_In. fold names. rewrite LN. apply nth_error_Some. congruence. }
    assert (KC : dkeys (combine (map key cs) ms) = map key cs) by (apply combine_fst; rewrite map_length; congruence).
    exists (combine (map key cs) ms ++ [("latent"%string, MArr lat)]), lat. split; [reflexivity|].
    split; [apply dget_mid; rewrite KC; exact NLc|].
    split; [unfold dkeys in *; rewrite map_app, KC; reflexivity|].
    assert (GET : forall c v, link x c -> (dget (key c) (combine (map key cs) ms ++ [("latent"%string, MArr lat)]) = Some v <-> In (c, v) (combine cs ms))).
    { intros c v HL. destruct (child_get names rows ND rows_ok x ms [("latent"%string, MArr lat)] c L (proj2 (rows_link _ _) HL)) as (v' & Hv' & Hin). fold cs key in Hv'. fold cs in Hin.
      unfold keyat in Hv'. fold key in Hv'.
      split.
      - intros Hv. assert (E2 : Some v = Some v') by (rewrite <- Hv; exact Hv'). injection E2 as ->. exact Hin.
      - intros Hin'. apply (dget_combine_nth key cs ms c v NC Hin'). }
    split.
    { intros c HL. destruct (child_get names rows ND rows_ok x ms [("latent"%string, MArr lat)] c L (proj2 (rows_link _ _) HL)) as (v & Hv & Hin). exists v. split; [exact Hv | exact (HK c v Hin)]. }
    cbn zeta.
    assert (KID : forall i, (exists c v, link x c /\ dget (key c) (combine (map key cs) ms ++ [("latent"%string, MArr lat)]) = Some v /\ true_at i v) <->
                     nth_error xs i = Some true).
    { intros i. destruct (data_sound _ _ Hx) as [_ HS]. rewrite (HS i), or_true. split.
      - intros (c & v & HL & Hg & HT). apply (GET c v HL) in Hg. exists (key c), v. split; [|exact HT].
        clear -Hg. revert ms Hg. induction cs as [|y cs IH]; intros [|z ms] Hg; cbn in *; try contradiction. destruct Hg as [E|Hg]; [injection E as -> ->; auto | auto].
      - intros (k & v & Hin & HT). apply (combine_in_map names) in Hin as (c & Hin & ->).
        assert (HL : link x c) by (apply (proj2 (ch_ok x)); eapply in_combine_l; exact Hin).
        exists c, v. split; [exact HL|]. split; [apply GET; assumption | exact HT]. }
    assert (LAT : forall i, nth_error lat i = Some true <-> i < n /\ (nth_error (nth x masks_of []) i = Some true <-> nth_error xs i <> Some true)).
    { intros i. unfold lat. rewrite (map2_xorb_true xs (nth x masks_of []) n i LX LDx).
      split; intros H; (split; [|]); try tauto.
      - destruct H as [H _]. destruct (nth_error xs i) as [[|]|], (nth_error (nth x masks_of []) i) as [[|]|]; split; intros K; try congruence; try (apply H; congruence); try (exfalso; apply (proj1 H); congruence).
        all: try (intros K2; apply (proj1 H); congruence). all: exfalso; destruct H as [Ha Hb]; try (assert (F : Some false = Some true) by (apply Hb; congruence); discriminate F); try (assert (F : @None bool = Some true) by (apply Hb; congruence); discriminate F).
      - destruct H as [_ H]. destruct (nth_error xs i) as [[|]|], (nth_error (nth x masks_of []) i) as [[|]|]; split; intros K; try congruence; try (apply H; congruence); try (exfalso; apply (proj1 H); congruence).
        all: try (intros K2; apply (proj1 H); congruence). all: exfalso; destruct H as [Ha Hb]; try (assert (F : Some false = Some true) by (apply Hb; congruence); discriminate F); try (assert (F : @None bool = Some true) by (apply Hb; congruence); discriminate F). }
    split; [|split].
    - apply data_complete. apply (grows_agg names rows masks_of (e_edges ev)) in HG; auto; [|congruence]. rewrite LE in HG. exact HG.
    - intros i. rewrite or_true, KID. split.
      + intros (k & v & Hin & HT). apply in_app_or in Hin as [Hin|[Hin|[]]].
        * right. destruct (data_sound _ _ Hx) as [_ HS]. apply HS. apply or_true. eauto.
        * injection Hin as <- <-. inversion HT as [? HN| |]; subst. apply LAT in HN as [Hi HN].
          destruct (nth_error xs i) as [[|]|]; [right; reflexivity | left; apply HN; congruence | left; apply HN; congruence].
      + intros H. assert (C : nth_error xs i = Some true \/ (nth_error (nth x masks_of []) i = Some true /\ nth_error xs i <> Some true)).
        { destruct (nth_error xs i) as [[|]|]; [left; reflexivity | right; split; [|congruence] | right; split; [|congruence]]; destruct H as [H|H]; congruence. }
        destruct C as [C|[C1 C2]].
        * destruct (data_sound _ _ Hx) as [_ HS]. apply HS in C. apply or_true in C as (k & v & Hin & HT). exists k, v. split; [apply in_or_app; left; exact Hin | exact HT].
        * exists "latent"%string, (MArr lat). split; [apply in_or_app; right; left; reflexivity|]. constructor. apply LAT.
          split; [rewrite <- LDx; apply nth_error_Some; congruence|]. tauto.
    - intros i. rewrite LAT, KID. split; intros [H1 H2]; (split; [exact H1 | exact H2]).
  Qed.

  Lemma leaf_true x m : G x m -> (forall c, ~ link x c) -> exists b, m = MArr b /\ length b = n /\ let d := nth x masks_of [] in
    forall i, nth_error b i = Some true <-> nth_error d i = Some true \/ exists f v w, first_true d f /\ nth_error (e_edges ev) f = Some (v, w) /\ sole_entry (e_edges ev) v i.
  Proof.
    intros HG HN. destruct desc_parts as (E & EN & ND & NL & LN & LD & HD). destruct masks_all as [A1 A2]. pose proof Hok as (LE & _).
    assert (EC : child_ix rows x = []).
    { destruct (child_ix rows x) as [|c cs] eqn:EC; [reflexivity|]. exfalso. apply (HN c). apply (proj2 (ch_ok x)). rewrite EC. left; reflexivity. }
    destruct (G_row x m HG) as (p & Hp).
    rewrite (grows_leaf_inv names rows masks_of (e_edges ev) x m HG EC). exists (leaf_bits (e_edges ev) (nth x masks_of [])). split; [reflexivity|].
    destruct (leaf_ok names masks_of (e_edges ev) (eq_trans LD (eq_sym LN)) A1 A2 x) as [_ LB].
    { rewrite LN. apply nth_error_Some. congruence. }
    split; [rewrite LB; exact LE|]. cbn zeta. intros i. apply leaf_bits_at. destruct (HD x p Hp) as [-> _]. symmetry. exact LE.
  Qed.
End Event.
