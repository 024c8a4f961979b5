(** Order-theoretic facts about the ancestry of hard partons. *)
From Verif Require Import Prelude Dict Keys MaskTypes SpecMask Mask MaskProofs SpecArray SpecAdj Arrays ArraysProofs Composite SpecComposite CompositeProofs Adjacency AdjacencyProofs Descend DescendProofs SpecHard Hard HardProofs SpecHier Hierarchy HierProofs TreeProofs HierEvent HierMain.

(** ** Descent without shared ends *)

Definition below (es : edges) (p q : nat) : Prop :=
  exists a b c d, nth_error es p = Some (a, b) /\ nth_error es q = Some (c, d) /\ src_of es b /\ reach es b c.

Lemma reach_trans es a b c : reach es a b -> reach es b c -> reach es a c.
Proof. intros H1 H2. induction H2 as [|x y H IH Hin]; [exact H1 | econstructor; eauto]. Qed.

Lemma own_below es p q : own_end es -> descends es p q -> p = q \/ below es p q.
Proof.
  intros HO (a & b & c & d & Hp & Hq & [[H1 H2]|[H1 ->]]); [right; exists a, b, c, d; auto|]. left. eapply HO; eauto.
Qed.
Lemma below_descends es p q : below es p q -> descends es p q.
Proof. intros (a & b & c & d & Hp & Hq & H1 & H2). exists a, b, c, d. auto. Qed.
Lemma below_trans es p q r : below es p q -> below es q r -> below es p r.
Proof.
  intros (a & b & c & d & Hp & Hq & S1 & R1) (a' & b' & c' & d' & Hq' & Hr & S2 & R2). rewrite Hq in Hq'. injection Hq' as <- <-.
  exists a, b, c', d'. repeat (split; [assumption|]). apply (reach_trans es b c); [exact R1|]. apply (reach_trans es c d); [|exact R2].
  econstructor; [constructor | eapply nth_error_In; exact Hq].
Qed.

(** ** Closest ancestors exist *)

Lemma argmin_list (P : nat -> bool) (f : nat -> nat) l : (exists i, In i l /\ P i = true) -> exists i, In i l /\ P i = true /\ forall j, In j l -> P j = true -> f i <= f j.
Proof.
  induction l as [|x l IH]; intros (i & Hi & HP); [destruct Hi|].
  destruct (existsb P l) eqn:E.
  - apply existsb_exists in E as (y & Hy & Py). destruct IH as (m & Hm & Pm & Hmin); [eauto|].
    destruct (P x) eqn:Px.
    + destruct (Nat.le_gt_cases (f x) (f m)) as [H|H].
      * exists x. split; [left; reflexivity|]. split; [exact Px|]. intros j [<-|Hj] Pj; [lia|]. specialize (Hmin j Hj Pj). lia.
      * exists m. split; [right; exact Hm|]. split; [exact Pm|]. intros j [<-|Hj] Pj; [lia | auto].
    + exists m. split; [right; exact Hm|]. split; [exact Pm|]. intros j [<-|Hj] Pj; [congruence | auto].
  - assert (N : forall j, In j l -> P j = true -> False).
    { intros j Hj Pj. assert (T : existsb P l = true) by (apply existsb_exists; eauto). congruence. }
    destruct Hi as [<-|Hi]; [|exfalso; eauto]. exists x. split; [left; reflexivity|]. split; [exact HP|]. intros j [<-|Hj] Pj; [lia | exfalso; eauto].
Qed.

Lemma card_lt P Q k k' w : card P k -> card Q k' -> (forall z, P z -> Q z) -> Q w -> ~ P w -> k < k'.
Proof.
  intros (l & ND & HL & <-) (l' & ND' & HL' & <-) HI HQ HN. change (length (w :: l) <= length l'). apply NoDup_incl_length.
  - constructor; [rewrite HL; exact HN | exact ND].
  - intros z [<-|Hz]; apply HL'; [exact HQ | apply HI, HL; exact Hz].
Qed.

Section Order.
  Context (n : nat) (rows : list (list bool)).
  Hypothesis SQ : square n rows.
  Let A := anc_of rows.
  Let cnt (i : nat) := count_true (row (clear_diag rows) i).
  Let link := closest A.

  Lemma A_card i : card (A i) (cnt i).
  Proof. eapply card_ext; [|apply row_card]. intros d. apply (clear_on n); exact SQ. Qed.
  Lemma A_lt i j : A i j -> i < n /\ j < n.
  Proof. intros [_ H]. eapply entry_lt; eauto. Qed.
  Lemma A_dec i j : {A i j} + {~ A i j}.
  Proof.
    destruct (on (clear_diag rows) i j) eqn:E; [left; apply (clear_on n _ _ _ SQ); exact E | right].
    intros H. apply (clear_on n _ _ _ SQ) in H. congruence.
  Qed.
  Lemma cnt_le i : cnt i <= n.
  Proof.
    destruct (A_card i) as (l & ND & HL & <-). rewrite <- (seq_length n 0). apply NoDup_incl_length; [exact ND|].
    intros x Hx. apply HL, A_lt in Hx. apply in_seq. lia.
  Qed.

  Lemma closest_exists x : (exists i, A i x) -> exists i, link i x.
  Proof.
    intros (i0 & H0).
    destruct (argmin_list (fun i => on (clear_diag rows) i x) (fun i => cnt i * S n + i) (seq 0 n)) as (i & Hi & Pi & Hmin).
    { exists i0. split; [apply in_seq; apply A_lt in H0; lia | apply (clear_on n _ _ _ SQ); exact H0]. }
    apply (clear_on n _ _ _ SQ) in Pi. exists i. split; [exact Pi|]. intros i' Hi'. exists (cnt i), (cnt i').
    split; [apply A_card|]. split; [apply A_card|].
    assert (M : cnt i * S n + i <= cnt i' * S n + i').
    { apply Hmin; [apply in_seq; apply A_lt in Hi'; lia | apply (clear_on n _ _ _ SQ); exact Hi']. }
    apply A_lt in Pi, Hi'. destruct (Nat.lt_trichotomy (cnt i) (cnt i')) as [H|[H|H]]; [left; exact H | right; split; [exact H | rewrite H in M; lia] |].
    exfalso. assert (S (cnt i') * S n <= cnt i * S n) by (apply Nat.mul_le_mono_r; lia). lia.
  Qed.

  Hypothesis TR : forall i j k, A i j -> A j k -> A i k.
  Hypothesis IR : forall i, ~ A i i.

  Lemma cnt_lt i x : A i x -> cnt x < cnt i.
  Proof. intros H. apply (card_lt (A x) (A i) _ _ x); [apply A_card | apply A_card | intros z Hz; eapply TR; eauto | exact H | apply IR]. Qed.

  Lemma chain_exists x : (exists c, link x c) \/ (exists i, A i x) -> exists l, chain link l /\ last l 0 = x.
  Proof.
    remember (n - cnt x) as k eqn:Ek. assert (Hk : n - cnt x <= k) by lia. clear Ek. revert x Hk.
    induction k as [|k IH]; intros x Hk Hx.
    - assert (N : ~ exists i, A i x). { intros (i & Hi). apply cnt_lt in Hi. pose proof (cnt_le i). lia. }
      destruct Hx as [(c & Hc)|Hx]; [|contradiction]. exists [x]. split; [|reflexivity]. exists x. split; [|constructor].
      split; [eauto|]. intros p Hp. apply N. exists p. apply Hp.
    - destruct (existsb (fun i => on (clear_diag rows) i x) (seq 0 n)) eqn:E.
      + apply existsb_exists in E as (i0 & _ & H0). apply (clear_on n _ _ _ SQ) in H0.
        destruct (closest_exists x (ex_intro _ i0 H0)) as (i & Hi). pose proof (cnt_lt i x (proj1 Hi)) as HC. pose proof (cnt_le i).
        destruct (IH i) as (l & Hl & El); [lia | left; eauto|].
        exists (l ++ [x]). split; [|apply last_last]. destruct Hl as (r & Hr & Hd). exists r. split; [exact Hr|].
        assert (Hne : l <> []) by (destruct Hd; discriminate). destruct (exists_last Hne) as (l0 & y & ->). rewrite last_last in El. subst y.
        rewrite <- app_assoc. cbn. apply down_snoc; assumption.
      + assert (N : ~ exists i, A i x).
        { intros (i & Hi). assert (T : existsb (fun i => on (clear_diag rows) i x) (seq 0 n) = true); [|congruence].
          apply existsb_exists. exists i. split; [apply in_seq; apply A_lt in Hi; lia | apply (clear_on n _ _ _ SQ); exact Hi]. }
        destruct Hx as [(c & Hc)|Hx]; [|contradiction]. exists [x]. split; [|reflexivity]. exists x. split; [|constructor].
        split; [eauto|]. intros p Hp. apply N. exists p. apply Hp.
  Qed.

  (** When the ancestors of every parton form a line. *)
  Hypothesis LINE : forall i j x, A i x -> A j x -> i = j \/ A i j \/ A j i.
  Lemma top_linked x : (exists j, A x j) -> (forall i, ~ A i x) -> exists c, link x c.
  Proof.
    intros (j0 & H0) HN.
    destruct (argmin_list (fun j => on (clear_diag rows) x j) (fun j => n - cnt j) (seq 0 n)) as (c & Hc & Pc & Hmin).
    { exists j0. split; [apply in_seq; apply A_lt in H0; lia | apply (clear_on n _ _ _ SQ); exact H0]. }
    apply (clear_on n _ _ _ SQ) in Pc. destruct (closest_exists c (ex_intro _ x Pc)) as (i & Hi). exists c.
    destruct (LINE i x c (proj1 Hi) Pc) as [->|[H|H]]; [exact Hi | exfalso; exact (HN i H)|]. exfalso.
    assert (M : n - cnt c <= n - cnt i) by (apply Hmin; [apply in_seq; apply A_lt in H; lia | apply (clear_on n _ _ _ SQ); exact H]).
    pose proof (cnt_lt i c (proj1 Hi)). pose proof (cnt_le i). pose proof (cnt_le c). lia.
  Qed.
End Order.

Section Event.
  Context (name : Z -> string) (ev : event) (n : nat) (desc : list (string * mask)).
  Hypothesis Hok : event_ok n ev.
  Hypothesis Hname : forall z, has_colon (name z) = false.
  Hypothesis Hlat : forall z, name z <> "latent"%string.
  Hypothesis Hint : has_intermediate ev.
  Hypothesis Hdesc : hard_descendants name ev None false true = Ok (MGrp "or" desc).
  Let names := dkeys desc.
  Let key (i : nat) := nth i (dkeys desc) ""%string.
  Let link := closest (anc_ev ev).
  Let rows := hrows ev (masks_of desc).
  Let G := grows names rows (masks_of desc) (e_edges ev).
  Let es := e_edges ev.

  Lemma chain_rows l : chain link l <-> chain (closest (anc_of rows)) l.
  Proof.
    pose proof (rows_link name ev n desc Hok Hname Hlat Hdesc) as RL.
    split; intros (r & [(c & Hc) Hr] & Hd); exists r; (split; [split; [exists c; apply RL; exact Hc | intros p Hp; apply (Hr p), RL; exact Hp]|]).
    - apply (down_rows name ev n desc Hok Hname Hlat Hdesc). exact Hd.
    - apply (down_rows name ev n desc Hok Hname Hlat Hdesc). exact Hd.
  Qed.

  (** *** Children stay inside their parent *)
  Hypothesis Hown : own_end es.

  Lemma anc_below x c p q : anc_ev ev x c -> nth_error (hard_rows ev) x = Some p -> nth_error (hard_rows ev) c = Some q -> below es p q.
  Proof.
    intros (Hn & p' & q' & Hp' & Hq' & HD) Hp Hq. rewrite Hp in Hp'. rewrite Hq in Hq'. injection Hp' as <-. injection Hq' as <-.
    apply (own_below es p q Hown) in HD as [E|H]; [|exact H]. exfalso. apply Hn.
    apply (proj1 (NoDup_nth_error (hard_rows ev)) (hard_rows_NoDup ev)); [apply nth_error_Some; congruence | congruence].
  Qed.

  Lemma contained m : forall x, G x m ->
    ((exists c, link x c) -> forall i, true_at i m -> nth_error (nth x (masks_of desc) []) i = Some true) /\
    (forall y i, link y x -> true_at i m -> nth_error (nth y (masks_of desc) []) i = Some true).
  Proof.
    destruct (desc_parts name ev n desc Hok Hname Hlat Hdesc) as (E & EN & ND & NL & LN & LD & HD).
    assert (STEP : forall x y i, link y x -> nth_error (nth x (masks_of desc) []) i = Some true -> nth_error (nth y (masks_of desc) []) i = Some true).
    { intros x y i HL Hi. destruct (linked_row ev y (ex_intro _ x HL)) as (p & Hp). destruct (child_row ev y x HL) as (q & Hq).
      pose proof (anc_below y x p q (proj1 HL) Hp Hq) as HB. apply (proj2 (HD x q Hq)) in Hi. apply (proj2 (HD y p Hp)).
      destruct Hi as [->|Hi]; [right; apply below_descends; exact HB|].
      apply (own_below es q i Hown) in Hi as [<-|Hi]; right; apply below_descends; [exact HB | eapply below_trans; eauto]. }
    induction m as [b|agg kids IH] using mask_ind'; intros x HG.
    - (* a leaf *)
      assert (NC : ~ exists c, link x c).
      { intros HC. destruct (node_true name ev n desc Hok Hname Hlat Hdesc x (MArr b) HG HC) as (sub & lat & F & _). discriminate F. }
      split; [intros HC; contradiction|]. intros y i HL HT.
      destruct (leaf_true name ev n desc Hok Hname Hlat Hdesc x (MArr b) HG (fun c Hc => NC (ex_intro _ c Hc))) as (b' & Eb & _ & HB). injection Eb as <-.
      inversion HT as [? HN| |]; subst. apply HB in HN as [HN|(f & v & w & [Hf _] & He & HS)]; [apply (STEP x); assumption|].
      destruct (linked_row ev y (ex_intro _ x HL)) as (p & Hp). destruct (child_row ev y x HL) as (q & Hq).
      pose proof (anc_below y x p q (proj1 HL) Hp Hq) as BX. apply (proj2 (HD x q Hq)) in Hf. apply (proj2 (HD y p Hp)).
      assert (BF : below es p f).
      { destruct Hf as [->|Hf]; [exact BX|]. apply (own_below es q f Hown) in Hf as [<-|Hf]; [exact BX | eapply below_trans; eauto]. }
      destruct BF as (a & bb & c & d & Ep & Ef & SB & RB). change (nth_error es f = Some (v, w)) in He. rewrite Ef in He. injection He as -> ->.
      destruct HS as [(s & Hs) HU]. inversion RB as [|u ? RU Hin]; subst.
      + left. symmetry. eapply HU. exact Ep.
      + right. apply In_nth_error in Hin as (e & He). rewrite (HU e u He) in He. apply below_descends.
        exists a, bb, u, v. repeat (split; [assumption|]). exact RU.
    - assert (HC : exists c, link x c).
      { destruct (child_ix rows x) as [|c cs] eqn:EC.
        - pose proof (grows_leaf_inv _ _ _ _ _ _ HG EC) as F. discriminate F.
        - exists c. apply (proj2 (ch_ok name ev n desc Hok Hname Hlat Hdesc x)). fold rows. rewrite EC. left; reflexivity. }
      destruct (node_true name ev n desc Hok Hname Hlat Hdesc x _ HG HC) as (sub & lat & ES & _ & _ & HK & _ & HT & _). injection ES as -> ->.
      assert (IN : forall i, true_at i (MGrp "or" sub) -> nth_error (nth x (masks_of desc) []) i = Some true).
      { intros i Hi. apply HT in Hi as [Hi|(c & v & HL & Hg & Hv)]; [exact Hi|].
        destruct (HK c HL) as (v' & Hg' & HGc). rewrite Hg in Hg'. injection Hg' as <-. rewrite Forall_forall in IH.
        apply (proj2 (IH (nth c (dkeys desc) ""%string, v) (dget_In _ _ _ Hg) c HGc) x i HL Hv). }
      split; [intros _; exact IN|]. intros y i HL Hi. apply (STEP x y i HL), IN, Hi.
  Qed.

  (** *** Which partons appear *)
  Hypothesis Hacyc : forall i j, anc_ev ev i j -> ~ anc_ev ev j i.
  Lemma anc_trans i j k : anc_ev ev i j -> anc_ev ev j k -> anc_ev ev i k.
  Proof.
    intros H1 H2. pose proof H1 as (N1 & p & q & Hp & Hq & _). pose proof H2 as (N2 & q' & r & Hq' & Hr & _).
    split; [intros <-; exact (Hacyc _ _ H1 H2)|]. exists p, r. split; [exact Hp|]. split; [exact Hr|]. apply below_descends.
    exact (below_trans es p q r (anc_below i j p q H1 Hp Hq) (anc_below j k q r H2 Hq Hr)).
  Qed.
  Lemma ev_chain x : (exists c, link x c) \/ (exists i, anc_ev ev i x) -> exists l, chain link l /\ last l 0 = x.
  Proof.
    intros H. pose proof (rows_anc name ev n desc Hok Hname Hlat Hdesc) as RA. pose proof (rows_link name ev n desc Hok Hname Hlat Hdesc) as RL. fold rows in RA, RL.
    destruct (chain_exists (length names) rows (rows_ok name ev n desc Hok Hname Hlat Hdesc)) with (x := x) as (l & Hl & El).
    - intros i j k. rewrite !RA. apply anc_trans.
    - intros i. intros [K _]. congruence.
    - destruct H as [(c & Hc)|(i & Hi)]; [left; exists c; apply RL; exact Hc | right; exists i; apply RA; exact Hi].
    - exists l. split; [apply chain_rows; exact Hl | exact El].
  Qed.
  Lemma ev_top x : (forall i j y, anc_ev ev i y -> anc_ev ev j y -> i = j \/ anc_ev ev i j \/ anc_ev ev j i) ->
    (exists j, anc_ev ev x j) -> (forall i, ~ anc_ev ev i x) -> exists c, link x c.
  Proof.
    intros LINE (j & Hj) HN. pose proof (rows_anc name ev n desc Hok Hname Hlat Hdesc) as RA. pose proof (rows_link name ev n desc Hok Hname Hlat Hdesc) as RL. fold rows in RA, RL.
    destruct (top_linked (length names) rows (rows_ok name ev n desc Hok Hname Hlat Hdesc)) with (x := x) as (c & Hc).
    - intros a b c. rewrite !RA. apply anc_trans.
    - intros i. intros [K _]. congruence.
    - intros a b c. rewrite !RA. apply LINE.
    - exists j. apply RA. exact Hj.
    - intros i. rewrite RA. apply HN.
    - exists c. apply RL. exact Hc.
  Qed.
  Lemma anc_decide x : (exists i, anc_ev ev i x) \/ (forall i, ~ anc_ev ev i x).
  Proof.
    pose proof (rows_anc name ev n desc Hok Hname Hlat Hdesc) as RA. fold rows in RA. pose proof (rows_ok name ev n desc Hok Hname Hlat Hdesc) as SQ. fold rows in SQ.
    destruct (existsb (fun i => on (clear_diag rows) i x) (seq 0 (length (dkeys desc)))) eqn:E.
    - apply existsb_exists in E as (i & _ & H). left. exists i. apply RA. apply (clear_on _ _ _ _ SQ). exact H.
    - right. intros i Hi. apply RA in Hi. assert (T : existsb (fun i => on (clear_diag rows) i x) (seq 0 (length (dkeys desc))) = true); [|congruence].
      apply existsb_exists. exists i. split; [apply in_seq; pose proof (A_lt _ _ SQ _ _ Hi); lia | apply (clear_on _ _ _ _ SQ); exact Hi].
  Qed.
End Event.
