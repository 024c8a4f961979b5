From Verif Require Import Prelude Dict Keys MaskTypes SpecMask Mask MaskProofs SpecArray SpecAdj Arrays ArraysProofs Composite SpecComposite CompositeProofs Adjacency AdjacencyProofs Descend DescendProofs SpecHard Hard HardProofs SpecHier Hierarchy HierProofs.

(** * Chains *)

Section Chains.
  Context (link : nat -> nat -> Prop).
  Hypothesis link_fun : forall p p' c, link p c -> link p' c -> p = p'.

  (** A chain read upwards. *)
  Inductive up : list nat -> Prop :=
  | U_root x : root link x -> up [x]
  | U_step x y l : up (x :: l) -> link x y -> up (y :: x :: l).

  Lemma up_fun l1 : up l1 -> forall l2, up l2 -> hd_error l1 = hd_error l2 -> l1 = l2.
  Proof.
    induction 1 as [x [Hc Hr]|x y l H IH HL]; intros l2 H2 E; cbn in E.
    - destruct H2 as [z Hz|z w l2 H2 HL2]; cbn in E; injection E as <-; [reflexivity | exfalso; exact (Hr z HL2)].
    - destruct H2 as [z [_ Hz]|z w l2 H2 HL2]; cbn in E; injection E as ->; [exfalso; exact (Hz x HL)|].
      assert (x = z) by (eapply link_fun; eauto). subst z. f_equal. apply IH; auto.
  Qed.

  Lemma up_suffix l1 x l2 : up (l1 ++ x :: l2) -> up (x :: l2).
  Proof.
    induction l1 as [|y l1 IH]; cbn; intros H; [exact H|]. apply IH. inversion H as [z Hz E|z w l Hz HL E]; subst.
    - destruct l1; discriminate.
    - destruct l1; cbn in *; congruence.
  Qed.

  Lemma up_NoDup l : up l -> NoDup l.
  Proof.
    induction 1 as [x H|x y l H IH HL]; [repeat constructor; intros []|]. constructor; [|exact IH].
    intros F. apply in_split in F as (l1 & l2 & E).
    assert (Hy : up (y :: x :: l)) by (constructor; assumption).
    assert (H2 : up (y :: l2)).
    { apply (up_suffix (y :: l1)). cbn. rewrite <- E. exact Hy. }
    pose proof (up_fun _ Hy _ H2 eq_refl) as K. rewrite E in K. injection K as K. apply (f_equal (@length nat)) in K. rewrite app_length in K. cbn in K. lia.
  Qed.

  Lemma down_snoc r l x y : down link r (l ++ [x]) -> link x y -> down link r (l ++ [x; y]).
  Proof.
    revert r; induction l as [|z l IH]; intros r H HL; cbn in *.
    - inversion H as [a Ea|a b l' Hl Hd Ea]; subst; [apply (D_cons link x y [y]); [exact HL | constructor] | inversion Hd].
    - inversion H as [a Ea|a b l' Hl Hd Ea]; subst; [destruct l; discriminate|]. econstructor; [exact Hl|]. apply IH; assumption.
  Qed.

  Lemma up_chain l : up l -> chain link (rev l).
  Proof.
    induction 1 as [x H|x y l H IH HL]; [exists x; split; [exact H | constructor]|].
    destruct IH as (r & Hr & Hd). exists r. split; [exact Hr|]. cbn [rev] in *. rewrite <- app_assoc. cbn. apply down_snoc; assumption.
  Qed.

  Lemma chain_up l : chain link l -> up (rev l).
  Proof.
    intros (r & Hr & Hd).
    assert (G : forall r l, down link r l -> forall pre, up (r :: pre) -> up (rev l ++ pre)).
    { clear. induction 1 as [x|x y l HL Hd IH]; intros pre Hp; cbn; [exact Hp|]. rewrite <- app_assoc. cbn. apply IH. constructor; assumption. }
    rewrite <- (app_nil_r (rev l)). apply (G r l Hd). constructor; exact Hr.
  Qed.

  Lemma chain_unique l1 l2 d : chain link l1 -> chain link l2 -> l1 <> [] -> l2 <> [] -> last l1 d = last l2 d -> l1 = l2.
  Proof.
    intros H1 H2 N1 N2 E. apply chain_up in H1, H2.
    assert (R : rev l1 = rev l2); [|rewrite <- (rev_involutive l1), R, rev_involutive; reflexivity].
    apply up_fun; auto. destruct (exists_last N1) as (a & x & ->), (exists_last N2) as (b & y & ->).
    rewrite !last_last in E. subst y. rewrite !rev_app_distr. reflexivity.
  Qed.
End Chains.

(** * Building a dictionary in a loop *)

Lemma foldM_build {X} (key : X -> string) (F : list (string * mask) -> string -> res (list (string * mask))) (P : X -> mask -> Prop) cs :
  (forall c, In c cs -> exists m, (forall branch, F branch (key c) = Ok (dset (key c) m branch)) /\ P c m) ->
  forall pre, NoDup (dkeys pre ++ map key cs) ->
  exists ms, foldM F (map key cs) pre = Ok (pre ++ combine (map key cs) ms) /\ Forall2 P cs ms.
Proof.
  induction cs as [|c cs IH]; intros H pre ND.
  - exists []. cbn. rewrite app_nil_r. split; [reflexivity | constructor].
  - destruct (H c (or_introl eq_refl)) as (m & HF & HP). cbn [map] in ND.
    assert (Hk : ~ In (key c) (dkeys pre)) by (apply NoDup_remove_2 in ND; intros K; apply ND, in_or_app; left; exact K).
    destruct (IH (fun c' Hc' => H c' (or_intror Hc')) (pre ++ [(key c, m)])) as (ms & E & HM).
    { unfold dkeys. rewrite map_app. cbn. rewrite <- app_assoc. exact ND. }
    exists (m :: ms). split; [|constructor; assumption]. cbn [map foldM]. rewrite HF. cbn [bind]. rewrite dset_notin by exact Hk.
    rewrite E, <- app_assoc. reflexivity.
Qed.

Lemma dget_combine_nth {A} (key : nat -> string) cs (ms : list A) c m :
  NoDup (map key cs) -> In (c, m) (combine cs ms) -> forall tl, dget (key c) (combine (map key cs) ms ++ tl) = Some m.
Proof.
  revert ms; induction cs as [|x cs IH]; intros [|y ms] ND Hin tl; cbn in *; try contradiction.
  inversion ND as [|? ? Hn ND']; subst. destruct Hin as [E|Hin].
  - injection E as -> ->. rewrite String.eqb_refl. reflexivity.
  - destruct (String.eqb_spec (key c) (key x)) as [E|E]; [|apply IH; auto].
    exfalso. apply Hn. rewrite <- E. apply in_map. eapply in_combine_l; exact Hin.
Qed.

Lemma Forall2_combine_In {A B} (P : A -> B -> Prop) l r : Forall2 P l r -> (forall a, In a l -> exists b, In (a, b) (combine l r) /\ P a b) /\ (forall a b, In (a, b) (combine l r) -> P a b).
Proof.
  induction 1 as [|a b l r H HF [IH1 IH2]]; split; cbn.
  - intros a [].
  - intros a b [].
  - intros c [<-|Hc]; [eauto|]. destruct (IH1 c Hc) as (d & Hd & HP). eauto.
  - intros c d [E|Hc]; [injection E as <- <-; exact H | auto].
Qed.

(** * The tree *)

Section Tree.
  Context (names : list string) (rows : list (list bool)) (ds : list (list bool)) (es : edges).
  Let n := length names.
  Let N := length es.
  Let key := keyat names.
  Let ch := child_ix rows.
  Let link := closest (anc_of rows).
  Let dsj (j : nat) := nth j ds [].
  Let hard := flat_of names rows.
  Let desc := combine names (map MArr ds).

  Hypothesis names_nd : NoDup names.
  Hypothesis names_lat : ~ In "latent"%string names.
  Hypothesis rows_sq : square n rows.
  Hypothesis ds_len : length ds = n.
  Hypothesis ds_N : Forall (fun d => length d = N) ds.
  Hypothesis ds_any : Forall (fun d => In true d) ds.

  Lemma link_lt p c : link p c -> p < n /\ c < n.
  Proof. intros [[_ H] _]. eapply entry_lt; eauto. Qed.
  Lemma ch_link p c : In c (ch p) <-> link p c.
  Proof. apply (child_ix_ok n rows p rows_sq). Qed.
  Lemma key_inj i j : i < n -> j < n -> key i = key j -> i = j.
  Proof. intros Hi Hj E. apply (proj1 (NoDup_nth names ""%string) names_nd); assumption. Qed.
  Lemma key_In i : i < n -> In (key i) names.
  Proof. intros H. apply nth_In. exact H. Qed.
  Lemma key_not_latent i : i < n -> key i <> "latent"%string.
  Proof. intros H E. apply names_lat. rewrite <- E. apply key_In; exact H. Qed.
  Lemma ch_keys_NoDup j : NoDup (map key (ch j)).
  Proof.
    apply keyat_map_NoDup; [exact names_nd | apply lt_sorted_NoDup, positions_sorted|].
    intros c Hc. apply ch_link, link_lt in Hc. apply Hc.
  Qed.

  Lemma hard_get j : j < n -> dget (key j) hard = if Nat.eqb (length (ch j)) 0 then None else Some (map key (ch j)).
  Proof.
    intros Hj. unfold hard, flat_of. fold n ch.
    assert (ND : NoDup (map key (filter (fun i => negb (Nat.eqb (length (ch i)) 0)) (seq 0 n)))).
    { apply keyat_map_NoDup; [exact names_nd | apply NoDup_filter, seq_NoDup|]. intros i Hi. apply filter_In in Hi as [Hi _]. apply in_seq in Hi. unfold n in Hi. lia. }
    destruct (Nat.eqb_spec (length (ch j)) 0) as [E|E].
    - apply dget_None. unfold dkeys. rewrite map_map. cbn [fst]. intros F. apply in_map_iff in F as (i & Ei & Hi). apply filter_In in Hi as [Hi Hf].
      apply in_seq in Hi. apply key_inj in Ei; [|lia|exact Hj]. subst i. rewrite E in Hf. discriminate.
    - apply In_dget; [unfold dkeys; rewrite map_map; exact ND|]. apply in_map_iff. exists j. split; [reflexivity|].
      apply filter_In. split; [apply in_seq; lia|]. apply negb_true_iff, Nat.eqb_neq. exact E.
  Qed.

  Lemma desc_get j : j < n -> dget (key j) desc = Some (MArr (dsj j)).
  Proof.
    intros Hj. unfold desc. rewrite (combine_seq names (map MArr ds) ""%string (MArr [])) by (rewrite map_length; unfold n in ds_len; congruence).
    apply In_dget.
    - unfold dkeys. rewrite map_map. cbn [fst].
      apply keyat_map_NoDup; [exact names_nd | apply seq_NoDup | intros i Hi; apply in_seq in Hi; lia].
    - apply in_map_iff. exists j. split; [|apply in_seq; fold n; lia]. unfold dsj. rewrite map_nth. reflexivity.
  Qed.
  Lemma dsj_ok j : j < n -> length (dsj j) = N /\ In true (dsj j).
  Proof.
    intros Hj. rewrite Forall_forall in ds_N, ds_any. assert (In (dsj j) ds) by (apply nth_In; lia). auto.
  Qed.

  (** The leaf mask. *)
  Definition leaf_bits (d : list bool) : list bool :=
    match compress d (map fst es) with
    | [] => d
    | v :: _ => let initial := map (fun e => Z.eqb (snd e) v) es in
                if Nat.eqb (count_true initial) 1 then map2 orb d initial else d
    end.
  Lemma leaf_ok j : j < n -> leaf_branch es (MArr (dsj j)) = Ok (MArr (leaf_bits (dsj j))) /\ length (leaf_bits (dsj j)) = N.
  Proof.
    intros Hj. destruct (dsj_ok j Hj) as [L T]. unfold leaf_branch, leaf_bits. cbn [data bind].
    rewrite getkey_mask by (rewrite map_length; exact L). cbn [bind].
    destruct (compress (dsj j) (map fst es)) as [|v l] eqn:E.
    - exfalso. apply In_nth_error in T as (i & Hi).
      destruct (nth_error_in_range (map fst es) i) as (x & Hx); [rewrite map_length; fold N; rewrite <- L; apply nth_error_Some; congruence|].
      assert (F : In x (compress (dsj j) (map fst es))) by (apply compress_In; eauto). rewrite E in F. exact F.
    - cbn [get nth_error bind]. split; [reflexivity|]. destruct (Nat.eqb _ 1); [|exact L].
      rewrite map2_length, map_length. fold N. lia.
  Qed.

  (** What is built for parton j. *)
  Inductive grows : nat -> mask -> Prop :=
  | G_leaf j : j < n -> ch j = [] -> grows j (MArr (leaf_bits (dsj j)))
  | G_node j ms xs : j < n -> ch j <> [] -> length ms = length (ch j) ->
      (forall c m, In (c, m) (combine (ch j) ms) -> grows c m) ->
      data (MGrp "or" (combine (map key (ch j)) ms)) = Ok xs -> length xs = N ->
      grows j (MGrp "or" (combine (map key (ch j)) ms ++ [("latent"%string, MArr (map2 xorb xs (dsj j)))])).

  Lemma means_or : means "or" OR.
  Proof. left. reflexivity. Qed.

  Lemma combine_in_map (cs : list nat) (ms : list mask) k v : In (k, v) (combine (map key cs) ms) -> exists c, In (c, v) (combine cs ms) /\ k = key c.
  Proof.
    revert ms; induction cs as [|c cs IH]; intros [|m ms] H; cbn in *; try contradiction.
    destruct H as [E|H]; [injection E as <- <-; eauto|]. destruct (IH ms H) as (c' & H' & E). eauto.
  Qed.

  Lemma grows_agg j m : grows j m -> aggregable N m.
  Proof.
    intros H. induction H as [j Hj E|j ms xs Hj E L HG IH Hx LX].
    - constructor. apply leaf_ok; exact Hj.
    - constructor.
      + right. exact means_or.
      + intros F. apply app_eq_nil in F as [_ F]. discriminate.
      + intros k v Hin. apply in_app_or in Hin as [Hin|[Hin|[]]].
        * apply combine_in_map in Hin as (c & Hc & _). eapply IH; exact Hc.
        * injection Hin as <- <-. constructor. rewrite map2_length. destruct (dsj_ok j Hj). lia.
  Qed.

  Lemma node_grows j ms : j < n -> ch j <> [] -> Forall2 grows (ch j) ms ->
    exists m, with_latent desc (key j) (combine (map key (ch j)) ms) = Ok m /\ grows j m.
  Proof.
    intros Hj Hne HF. destruct (Forall2_combine_In _ _ _ HF) as [_ HG]. pose proof (Forall2_length' _ _ _ HF) as L.
    destruct (data_complete (MGrp "or" (combine (map key (ch j)) ms)) N) as (xs & Hx & LX).
    { constructor; [right; exact means_or | |].
      - intros E. destruct (ch j); [congruence|]. destruct ms; [discriminate | discriminate].
      - intros k v Hin. apply combine_in_map in Hin as (c & Hc & _). eapply grows_agg, HG, Hc. }
    exists (MGrp "or" (combine (map key (ch j)) ms ++ [("latent"%string, MArr (map2 xorb xs (dsj j)))])). split.
    - unfold with_latent. rewrite Hx. cbn [bind]. rewrite desc_get by exact Hj. cbn [bind data].
      destruct (dsj_ok j Hj) as [LD _]. rewrite LX, LD, Nat.eqb_refl. f_equal. f_equal. apply dset_notin.
      unfold dkeys. rewrite combine_fst by (rewrite map_length; exact L). intros F. apply in_map_iff in F as (c & E & Hc).
      apply (key_not_latent c); [|exact E]. apply ch_link, link_lt in Hc. apply Hc.
    - constructor; auto.
  Qed.

  Lemma link_fun' p p' c : link p c -> link p' c -> p = p'.
  Proof. apply closest_fun. Qed.

  Lemma up_lt l : up link l -> Forall (fun x => x < n) l.
  Proof.
    induction 1 as [x [(c & Hc) _]|x y l H IH HL]; constructor; auto; try (constructor).
    - apply link_lt in Hc. apply Hc.
    - apply link_lt in HL. apply HL.
  Qed.
  Lemma up_length l : up link l -> length l <= n.
  Proof.
    intros H. pose proof (up_NoDup link link_fun' l H) as ND. pose proof (up_lt l H) as HL.
    rewrite <- (seq_length n 0). apply NoDup_incl_length; [exact ND|]. intros x Hx. apply in_seq. rewrite Forall_forall in HL. specialize (HL x Hx). lia.
  Qed.

  Lemma nest_ok f : forall j l, up link (j :: l) -> n <= f + length (j :: l) + 1 ->
    exists ms, make_nest f hard desc es (map key (ch j)) = Ok (combine (map key (ch j)) ms) /\ Forall2 grows (ch j) ms.
  Proof.
    induction f as [|f IH]; intros j l HU HF.
    - destruct (foldM_build key (fun branch parton =>
        match dget parton hard with
        | Some kids => Err RecursionError
        | None => m <- match dget parton desc with Some m => Ok m | None => Err KeyError end ;;
                  l <- leaf_branch es m ;; Ok (dset parton l branch)
        end) grows (ch j)) with (pre := @nil (string * mask)) as (ms & E & HM).
      + intros c Hc. apply ch_link in Hc. pose proof (link_lt _ _ Hc) as [_ Hcn].
        assert (UC : up link (c :: j :: l)) by (constructor; assumption).
        assert (E0 : ch c = []).
        { destruct (ch c) as [|g gs] eqn:E; [reflexivity|]. exfalso. assert (Hg : link c g) by (apply ch_link; rewrite E; left; reflexivity).
          assert (UG : up link (g :: c :: j :: l)) by (constructor; assumption). pose proof (up_length _ UG). cbn in *. lia. }
        destruct (leaf_ok c Hcn) as [HL1 HL2]. exists (MArr (leaf_bits (dsj c))). split; [|constructor; assumption].
        intros branch. rewrite hard_get by exact Hcn. rewrite E0. cbn [length Nat.eqb]. rewrite desc_get by exact Hcn. cbn [bind]. rewrite HL1. reflexivity.
      + cbn. apply ch_keys_NoDup.
      + exists ms. split; [exact E | exact HM].
    - destruct (foldM_build key (fun branch parton =>
        match dget parton hard with
        | Some kids => sub <- make_nest f hard desc es kids ;; m <- with_latent desc parton sub ;; Ok (dset parton m branch)
        | None => m <- match dget parton desc with Some m => Ok m | None => Err KeyError end ;;
                  l <- leaf_branch es m ;; Ok (dset parton l branch)
        end) grows (ch j)) with (pre := @nil (string * mask)) as (ms & E & HM).
      + intros c Hc. apply ch_link in Hc. pose proof (link_lt _ _ Hc) as [_ Hcn].
        assert (UC : up link (c :: j :: l)) by (constructor; assumption).
        destruct (Nat.eqb_spec (length (ch c)) 0) as [E0|E0].
        * apply length_zero_iff_nil in E0. destruct (leaf_ok c Hcn) as [HL1 HL2]. exists (MArr (leaf_bits (dsj c))). split; [|constructor; assumption].
          intros branch. rewrite hard_get by exact Hcn. rewrite E0. cbn [length Nat.eqb]. rewrite desc_get by exact Hcn. cbn [bind]. rewrite HL1. reflexivity.
        * destruct (IH c (j :: l) UC) as (ms & E1 & HM); [cbn in *; lia|].
          assert (Hne : ch c <> []) by (intros K; rewrite K in E0; apply E0; reflexivity).
          destruct (node_grows c ms Hcn Hne HM) as (m & E2 & HG). exists m. split; [|exact HG]. intros branch.
          rewrite hard_get by exact Hcn. destruct (Nat.eqb_spec (length (ch c)) 0); [contradiction|]. rewrite E1. cbn [bind]. rewrite E2. reflexivity.
      + cbn. apply ch_keys_NoDup.
      + exists ms. split; [exact E | exact HM].
  Qed.

  (** ** Roots *)

  Definition is_root (i : nat) : bool := negb (existsb (String.eqb (key i)) (concat (map snd hard))).

  Lemma vals_In k : In k (concat (map snd hard)) <-> exists p c, link p c /\ k = key c.
  Proof.
    unfold hard, flat_of. fold n ch. rewrite map_map. cbn [snd]. rewrite <- flat_map_concat_map, in_flat_map. split.
    - intros (p & Hp & H). apply in_map_iff in H as (c & <- & Hc). exists p, c. split; [apply ch_link; exact Hc | reflexivity].
    - intros (p & c & HL & ->). exists p. apply ch_link in HL as HC. split; [|apply in_map; exact HC]. apply filter_In.
      split; [apply in_seq; apply link_lt in HL; lia|]. apply negb_true_iff, Nat.eqb_neq. destruct (ch p); [destruct HC | discriminate].
  Qed.

  Lemma is_root_ok i : i < n -> ch i <> [] -> (is_root i = true <-> root link i).
  Proof.
    intros Hi Hne. unfold is_root. rewrite negb_true_iff. split.
    - intros E. split.
      + destruct (ch i) as [|c cs] eqn:EC; [congruence|]. exists c. apply ch_link. rewrite EC. left; reflexivity.
      + intros p HL. assert (T : existsb (String.eqb (key i)) (concat (map snd hard)) = true); [|congruence].
        apply existsb_eqb_In. apply vals_In. eauto.
    - intros [_ H]. destruct (existsb _ _) eqn:E; [|reflexivity]. exfalso. apply existsb_eqb_In, vals_In in E as (p & c & HL & E).
      apply key_inj in E; [|exact Hi | apply link_lt in HL; apply HL]. subst c. exact (H p HL).
  Qed.

  Definition roots_ix : list nat := filter is_root (filter (fun i => negb (Nat.eqb (length (ch i)) 0)) (seq 0 n)).
  Lemma roots_ix_ok r : In r roots_ix <-> root link r.
  Proof.
    unfold roots_ix. rewrite !filter_In, in_seq. split.
    - intros [[Hr Hc] H]. apply is_root_ok; [lia| |exact H]. apply negb_true_iff, Nat.eqb_neq in Hc. intros E; rewrite E in Hc; apply Hc; reflexivity.
    - intros HR. pose proof HR as [(c & Hc) _]. pose proof (link_lt _ _ Hc). apply ch_link in Hc.
      assert (Hne : ch r <> []) by (intros E; rewrite E in Hc; exact Hc).
      split; [split; [lia|]|apply is_root_ok; auto; lia]. apply negb_true_iff, Nat.eqb_neq. destruct (ch r); [congruence | discriminate].
  Qed.

  Lemma tree_ok fuel : n <= fuel + 2 -> exists ms,
    make_tree fuel hard desc es = Ok (MGrp "or" (combine (map key roots_ix) ms)) /\ Forall2 grows roots_ix ms.
  Proof.
    intros HF. unfold make_tree.
    set (rts := filter (fun k => negb (existsb (String.eqb k) (concat (map snd hard)))) (dkeys hard)).
    set (parents := filter (fun i => negb (Nat.eqb (length (ch i)) 0)) (seq 0 n)).
    assert (Hp : forall i, In i parents -> i < n /\ ch i <> []).
    { intros i Hi. apply filter_In in Hi as [Hi Hc]. apply in_seq in Hi. apply negb_true_iff, Nat.eqb_neq in Hc. split; [lia|]. intros E; rewrite E in Hc; apply Hc; reflexivity. }
    assert (HR : forall i, In i parents -> existsb (String.eqb (key i)) rts = is_root i).
    { intros i Hi. apply eq_true_iff_eq. rewrite existsb_eqb_In. unfold rts. rewrite filter_In. fold (is_root i). split; [intros [_ H]; exact H|].
      intros H. split; [|exact H]. unfold dkeys, hard, flat_of. fold n ch. rewrite map_map. cbn [fst]. apply in_map. exact Hi. }
    assert (G : forall ps, (forall i, In i ps -> In i parents) -> NoDup ps -> forall pre, NoDup (dkeys pre ++ map key ps) ->
      exists ms, foldM (fun branch item =>
        if existsb (String.eqb (fst item)) rts then
          sub <- make_nest fuel hard desc es (snd item) ;; m <- with_latent desc (fst item) sub ;; Ok (dset (fst item) m branch)
        else Ok branch) (map (fun i => (key i, map key (ch i))) ps) pre = Ok (pre ++ combine (map key (filter is_root ps)) ms) /\
        Forall2 grows (filter is_root ps) ms).
    { induction ps as [|i ps IH]; intros Hin NDp pre ND.
      - exists []. cbn. rewrite app_nil_r. split; [reflexivity | constructor].
      - assert (Hi : In i parents) by (apply Hin; left; reflexivity). destruct (Hp i Hi) as [Hi1 Hi2].
        inversion NDp as [|? ? Nn NDp']; subst. cbn [map foldM fst snd filter]. rewrite (HR i Hi). destruct (is_root i) eqn:ER.
        + apply is_root_ok in ER as RT; [|exact Hi1|exact Hi2].
          destruct (nest_ok fuel i []) as (ms & E & HM); [constructor; exact RT | cbn; lia|].
          destruct (node_grows i ms Hi1 Hi2 HM) as (m & E2 & HG). rewrite E. cbn [bind]. rewrite E2. cbn [bind].
          cbn [map] in ND. assert (Hk : ~ In (key i) (dkeys pre)) by (apply NoDup_remove_2 in ND; intros K; apply ND, in_or_app; left; exact K).
          rewrite dset_notin by exact Hk.
          destruct (IH (fun x Hx => Hin x (or_intror Hx)) NDp' (pre ++ [(key i, m)])) as (ms' & E' & HM').
          { unfold dkeys. rewrite map_app. cbn. rewrite <- app_assoc. exact ND. }
          exists (m :: ms'). split; [rewrite E', <- app_assoc; reflexivity | constructor; assumption].
        + cbn [bind]. apply IH; auto; [intros x Hx; apply Hin; right; exact Hx|]. cbn [map] in ND. apply NoDup_remove_1 in ND. exact ND. }
    destruct (G parents (fun i H => H)) with (pre := @nil (string * mask)) as (ms & E & HM).
    { apply NoDup_filter, seq_NoDup. }
    { cbn. apply keyat_map_NoDup; [exact names_nd | apply NoDup_filter, seq_NoDup|]. intros i Hi. apply Hp in Hi as [Hi _]. exact Hi. }
    exists ms. split; [|exact HM].
    match type of E with foldM ?f ?l ?s = _ => change (bind (foldM f l s) (fun branch => Ok (MGrp "or" branch)) = Ok (MGrp "or" (combine (map key roots_ix) ms))) end.
    rewrite E. reflexivity.
  Qed.

  (** ** Looking into the tree *)

  Lemma grows_node_inv j m : grows j m -> ch j <> [] -> exists sub lat ms xs,
    m = MGrp "or" sub /\ sub = combine (map key (ch j)) ms ++ [("latent"%string, MArr lat)] /\ lat = map2 xorb xs (dsj j) /\ length ms = length (ch j) /\
    (forall c m', In (c, m') (combine (ch j) ms) -> grows c m') /\ data (MGrp "or" (combine (map key (ch j)) ms)) = Ok xs /\ length xs = N.
  Proof.
    intros H Hne. destruct H as [j Hj E|j ms xs Hj E L HG Hx LX]; [contradiction|].
    exists (combine (map key (ch j)) ms ++ [("latent"%string, MArr (map2 xorb xs (dsj j)))]), (map2 xorb xs (dsj j)), ms, xs. repeat split; auto.
  Qed.
  Lemma grows_leaf_inv j m : grows j m -> ch j = [] -> m = MArr (leaf_bits (dsj j)).
  Proof. intros H E. destruct H; [reflexivity | contradiction]. Qed.

  Lemma child_get j (ms : list mask) (tl : list (string * mask)) c : length ms = length (ch j) -> link j c ->
    exists m, dget (key c) (combine (map key (ch j)) ms ++ tl) = Some m /\ In (c, m) (combine (ch j) ms).
  Proof.
    intros L HL. apply ch_link in HL.
    assert (E : exists m, In (c, m) (combine (ch j) ms)).
    { revert ms L HL. generalize (ch j) as cs. induction cs as [|x cs IH]; intros [|m ms] L HL; cbn in *; try contradiction; try discriminate.
      destruct HL as [->|HL]; [eauto|]. destruct (IH ms) as (m' & Hm); [congruence | exact HL|]. eauto. }
    destruct E as (m & Hm). exists m. split; [|exact Hm]. apply dget_combine_nth; [apply ch_keys_NoDup | exact Hm].
  Qed.

  Lemma at_down x l : down link x l -> forall m, grows x m -> exists m', at_path m (map key (tl l)) = Some m' /\ grows (last l 0) m'.
  Proof.
    induction 1 as [x|x y l HL Hd IH]; intros m HG.
    - exists m. split; [reflexivity | exact HG].
    - assert (Hne : ch x <> []) by (intros E; apply ch_link in HL; rewrite E in HL; exact HL).
      destruct (grows_node_inv x m HG Hne) as (sub & lat & ms & xs & -> & -> & _ & L & HK & _).
      destruct (child_get x ms [("latent"%string, MArr lat)] y L HL) as (my & Hg & Hin).
      destruct (IH my (HK y my Hin)) as (m' & H1 & H2). exists m'.
      destruct Hd as [y|y z l' HL' Hd']; cbn [tl map at_path last] in *; rewrite Hg; split; auto.
  Qed.

  Lemma at_any p : forall x m m', grows x m -> at_path m p = Some m' ->
    exists l, down link x l /\ ((p = map key (tl l) /\ grows (last l 0) m') \/
                              (p = map key (tl l) ++ ["latent"%string] /\ ch (last l 0) <> [] /\ exists d, m' = MArr d)).
  Proof.
    induction p as [|k p IH]; intros x m m' HG HP.
    - cbn in HP. injection HP as <-. exists [x]. split; [constructor|]. left. split; [reflexivity | exact HG].
    - destruct (ch x) as [|c0 cs0] eqn:EC.
      + rewrite (grows_leaf_inv x m HG EC) in HP. discriminate.
      + assert (Hne : ch x <> []) by congruence.
        destruct (grows_node_inv x m HG Hne) as (sub & lat & ms & xs & -> & -> & _ & L & HK & _).
        cbn [at_path] in HP. destruct (dget k _) as [v|] eqn:Eg; [|discriminate]. apply dget_In in Eg. apply in_app_or in Eg as [Eg|[Eg|[]]].
        * apply combine_in_map in Eg as (c & Hc & ->). destruct (IH c v m' (HK c v Hc) HP) as (l & Hd & HC).
          exists (x :: l). split; [econstructor; [apply ch_link; eapply in_combine_l; exact Hc | exact Hd]|].
          destruct Hd as [c|c y l' HL Hd]; cbn [tl map last app] in *.
          -- destruct HC as [[-> H]|(-> & H)]; [left | right]; split; auto.
          -- destruct HC as [[-> H]|(-> & H)]; [left | right]; split; auto.
        * injection Eg as <- <-. destruct p as [|k' p]; [|discriminate]. cbn in HP. injection HP as <-. exists [x].
          split; [constructor|]. right. cbn. split; [reflexivity|]. split; [exact Hne | eauto].
  Qed.
End Tree.
