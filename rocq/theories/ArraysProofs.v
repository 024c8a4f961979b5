From Verif Require Import Prelude Dict Keys MaskTypes SpecMask Mask MaskProofs SpecArray Arrays.

(** * Wrap-around *)

Lemma wrap_id bits z : (0 < bits)%Z -> (- 2 ^ (bits - 1) <= z < 2 ^ (bits - 1))%Z -> wrap bits z = z.
Proof.
  intros Hb Hz. unfold wrap.
  assert (E : (2 ^ bits = 2 * 2 ^ (bits - 1))%Z).
  { rewrite <- Z.pow_succ_r by lia. f_equal. lia. }
  rewrite Z.mod_small; lia.
Qed.

Lemma wrap_range bits z : (0 < bits)%Z -> (- 2 ^ (bits - 1) <= wrap bits z < 2 ^ (bits - 1))%Z.
Proof.
  intros Hb. unfold wrap.
  assert (E : (2 ^ bits = 2 * 2 ^ (bits - 1))%Z).
  { rewrite <- Z.pow_succ_r by lia. f_equal. lia. }
  assert (P : (0 < 2 ^ (bits - 1))%Z) by (apply Z.pow_pos_nonneg; lia).
  pose proof (Z.mod_pos_bound (z + 2 ^ (bits - 1)) (2 ^ bits)). lia.
Qed.

Lemma wrap_congr bits z : (0 < bits)%Z -> exists k, (wrap bits z = z + k * 2 ^ bits)%Z.
Proof.
  intros Hb. unfold wrap. assert (P : (0 < 2 ^ bits)%Z) by (apply Z.pow_pos_nonneg; lia).
  pose proof (Z.div_mod (z + 2 ^ (bits - 1)) (2 ^ bits)).
  exists (- ((z + 2 ^ (bits - 1)) / 2 ^ bits))%Z. lia.
Qed.

Lemma wrap32_id z : fits32 z -> wrap32 z = z.
Proof. intros H. apply wrap_id; [lia | exact H]. Qed.
Lemma wrap16_id z : fits16 z -> wrap16 z = z.
Proof. intros H. apply wrap_id; [lia | exact H]. Qed.

Lemma map_id_in {A} (f : A -> A) l : Forall (fun x => f x = x) l -> map f l = l.
Proof. induction 1 as [|x l Hx H IH]; [reflexivity|]. cbn. rewrite Hx, IH. reflexivity. Qed.

Lemma wrap32_list l : Forall fits32 l -> map wrap32 l = l.
Proof. intros H. apply map_id_in. eapply Forall_impl; [|exact H]. exact wrap32_id. Qed.
Lemma wrap16_list l : Forall fits16 l -> map wrap16 l = l.
Proof. intros H. apply map_id_in. eapply Forall_impl; [|exact H]. exact wrap16_id. Qed.

Lemma wrap32_idem z : wrap32 (wrap32 z) = wrap32 z.
Proof. apply wrap32_id. apply (wrap_range 32 z); lia. Qed.
Lemma wrap16_idem z : wrap16 (wrap16 z) = wrap16 z.
Proof. apply wrap16_id. apply (wrap_range 16 z); lia. Qed.

Lemma abs32 z : fits32 z -> z <> (- 2 ^ 31)%Z -> wrap32 (Z.abs z) = Z.abs z.
Proof. unfold fits32. intros H Hn. apply wrap32_id. unfold fits32. lia. Qed.
Lemma abs16 z : fits16 z -> z <> (- 2 ^ 15)%Z -> wrap16 (Z.abs z) = Z.abs z.
Proof. unfold fits16. intros H Hn. apply wrap16_id. unfold fits16. lia. Qed.

(** * Masks over codes *)

Lemma existsb_In z t : existsb (Z.eqb z) t = true <-> In z t.
Proof.
  rewrite existsb_exists. split.
  - intros (x & Hx & E). apply Z.eqb_eq in E. subst; exact Hx.
  - intros H. exists z. split; [exact H | apply Z.eqb_refl].
Qed.

Lemma pdg_mask_sensitive data target blacklist :
  Forall fits32 target ->
  length (pdg_mask data target blacklist true) = length data /\
  forall i z, nth_error data i = Some z ->
    exists b, nth_error (pdg_mask data target blacklist true) i = Some b /\
              (b = true <-> (if blacklist then ~ In z target else In z target)).
Proof.
  intros HT. unfold pdg_mask, isin. rewrite wrap32_list by exact HT. split; [apply map_length|].
  intros i z Hz. rewrite nth_error_map', Hz. cbn [option_map]. eexists. split; [reflexivity|].
  pose proof (existsb_In z target) as H. destruct (existsb (Z.eqb z) target), blacklist; cbn; intuition congruence.
Qed.

Lemma pdg_mask_insensitive data target blacklist :
  Forall fits32 target -> Forall fits32 data ->
  length (pdg_mask data target blacklist false) = length data /\
  forall i z, nth_error data i = Some z -> z <> (- 2 ^ 31)%Z ->
    exists b, nth_error (pdg_mask data target blacklist false) i = Some b /\
              (b = true <-> (if blacklist then ~ In (Z.abs z) target else In (Z.abs z) target)).
Proof.
  intros HT HD. unfold pdg_mask, isin. rewrite wrap32_list by exact HT. split; [rewrite !map_length; reflexivity|].
  intros i z Hz Hn. rewrite !nth_error_map', Hz. cbn [option_map]. eexists. split; [reflexivity|].
  rewrite abs32; [|eapply Forall_nth_error; eauto | exact Hn].
  pose proof (existsb_In (Z.abs z) target) as H.
  destruct (existsb (Z.eqb (Z.abs z)) target), blacklist; cbn; intuition congruence.
Qed.

Lemma pdg_mask_negative_nothing data target :
  Forall fits32 data -> Forall fits32 target ->
  Forall (fun z => z <> (- 2 ^ 31)%Z) data -> Forall (fun c => (c < 0)%Z) target ->
  pdg_mask data target false false = repeat false (length data).
Proof.
  intros HD HT HN HC. unfold pdg_mask, isin. rewrite wrap32_list by exact HT.
  induction data as [|z data IH]; [reflexivity|].
  inversion HD; subst. inversion HN; subst. cbn [map length repeat]. f_equal; [|apply IH; assumption].
  rewrite abs32 by assumption. rewrite xorb_false_r.
  destruct (existsb (Z.eqb (Z.abs z)) target) eqn:E; [|reflexivity].
  apply existsb_In in E. rewrite Forall_forall in HC. specialize (HC _ E). lia.
Qed.

Lemma pdg_mask_abs_data data data' target blacklist :
  Forall2 (fun a b => Z.abs a = Z.abs b) data data' ->
  pdg_mask data target blacklist false = pdg_mask data' target blacklist false.
Proof.
  intros H. unfold pdg_mask, isin. f_equal. induction H as [|a b l l' E H IH]; [reflexivity|].
  cbn [map]. rewrite E, IH. reflexivity.
Qed.

Lemma in_range_spec data lo hi ss :
  Forall fits16 data ->
  length (in_range data lo hi ss) = length data /\
  forall i z, nth_error data i = Some z ->
    exists b, nth_error (in_range data lo hi ss) i = Some b /\
      let s := if ss then z else if (z =? - 2 ^ 15)%Z then (- 2 ^ 15)%Z else Z.abs z in
      (b = true <-> (lo <= s)%Z /\ (forall h, hi = Some h -> (s <= h)%Z)).
Proof.
  intros HD. unfold in_range.
  set (f := fun z => if ss then z else wrap16 (Z.abs z)).
  assert (Ea : (if ss then data else map (fun z => wrap16 (Z.abs z)) data) = map f data).
  { unfold f. destruct ss; [rewrite map_id; reflexivity | reflexivity]. }
  rewrite Ea.
  assert (Hf : forall z, fits16 z -> f z = if ss then z else if (z =? - 2 ^ 15)%Z then (- 2 ^ 15)%Z else Z.abs z).
  { intros z Hz. unfold f. destruct ss; [reflexivity|]. destruct (Z.eqb_spec z (- 2 ^ 15)) as [->|Hn]; [reflexivity|].
    apply abs16; assumption. }
  split.
  - destruct hi as [h|]; [rewrite map2_length, !map_length, Nat.min_id; reflexivity | rewrite !map_length; reflexivity].
  - intros i z Hz. assert (Fz : fits16 z) by (eapply Forall_nth_error; eauto). cbn zeta. rewrite <- (Hf z Fz).
    destruct hi as [h|].
    + rewrite map2_nth, !nth_error_map', Hz. cbn [option_map]. eexists. split; [reflexivity|].
      rewrite andb_true_iff, !Z.leb_le. split.
      * intros [H1 H2]. split; [exact H1|]. intros h' E; injection E as <-. exact H2.
      * intros [H1 H2]. split; [exact H1 | apply H2; reflexivity].
    + rewrite !nth_error_map', Hz. cbn [option_map]. eexists. split; [reflexivity|].
      rewrite Z.leb_le. split; [intros H; split; [exact H | discriminate] | intros [H _]; exact H].
Qed.

(** |s| = code, with the int16 wrap, for the codes 21..24. *)
Lemma abs16_code z c : fits16 z -> (0 <= c < 2 ^ 15)%Z -> (c =? wrap16 (Z.abs z))%Z = (c =? Z.abs z)%Z.
Proof.
  intros Hz Hc. destruct (Z.eq_dec z (- 2 ^ 15)) as [->|Hn].
  - replace (wrap16 (Z.abs (- 2 ^ 15))) with (- 2 ^ 15)%Z by reflexivity.
    replace (Z.abs (- 2 ^ 15)) with (2 ^ 15)%Z by reflexivity.
    destruct (Z.eqb_spec c (- 2 ^ 15)), (Z.eqb_spec c (2 ^ 15)); lia.
  - rewrite abs16 by assumption. reflexivity.
Qed.

Lemma hard_code data c i z :
  Forall fits16 data -> (0 <= c < 2 ^ 15)%Z -> nth_error data i = Some z ->
  nth_error (map (Z.eqb c) (map (fun z => wrap16 (Z.abs z)) data)) i = Some (c =? Z.abs z)%Z.
Proof.
  intros HD Hc Hz. rewrite !nth_error_map', Hz. cbn [option_map]. f_equal. apply abs16_code; [|exact Hc].
  eapply Forall_nth_error; eauto.
Qed.

Lemma hard_mask_spec data :
  Forall fits16 data ->
  exists a b c d,
    hard_mask data = (MGrp "or" [("incoming", MArr a); ("intermediate", MArr b); ("outgoing", MArr c);
                                ("outgoing_nonperturbative_diffraction", MArr d)])%string /\
    Forall (fun m => length m = length data) [a; b; c; d] /\
    (forall i z, nth_error data i = Some z ->
       nth_error a i = Some (Z.abs z =? 21)%Z /\ nth_error b i = Some (Z.abs z =? 22)%Z /\
       nth_error c i = Some (Z.abs z =? 23)%Z /\ nth_error d i = Some (Z.abs z =? 24)%Z) /\
    exists t, Mask.data (hard_mask data) = Ok t /\ length t = length data /\
      forall i z, nth_error data i = Some z ->
        exists v, nth_error t i = Some v /\ (v = true <-> (21 <= Z.abs z <= 24)%Z).
Proof.
  intros HD. unfold hard_mask. eexists _, _, _, _. split; [reflexivity|]. split.
  { repeat constructor; rewrite !map_length; reflexivity. }
  split.
  { intros i z Hz.
    rewrite (hard_code data 21 i z), (hard_code data 22 i z), (hard_code data 23 i z), (hard_code data 24 i z)
      by (auto; lia). rewrite !(Z.eqb_sym _ (Z.abs z)). auto. }
  set (f := fun c => map (Z.eqb c) (map (fun z => wrap16 (Z.abs z)) data)).
  change (map (Z.eqb 21) (map (fun z => wrap16 (Z.abs z)) data)) with (f 21%Z).
  change (map (Z.eqb 22) (map (fun z => wrap16 (Z.abs z)) data)) with (f 22%Z).
  change (map (Z.eqb 23) (map (fun z => wrap16 (Z.abs z)) data)) with (f 23%Z).
  change (map (Z.eqb 24) (map (fun z => wrap16 (Z.abs z)) data)) with (f 24%Z).
  assert (Lf : forall c, length (f c) = length data) by (intros; unfold f; rewrite !map_length; reflexivity).
  exists (map2 orb (map2 orb (map2 orb (f 21%Z) (f 22%Z)) (f 23%Z)) (f 24%Z)). split; [|split].
  - cbn [Mask.data]. change (agg_op "or") with (Ok (A := aggop) OR). cbn [bind mapM snd Mask.data np_reduce fold_left].
    cbn [forallb]. rewrite !Lf, Nat.eqb_refl. reflexivity.
  - rewrite !map2_length, !Lf, !Nat.min_id. reflexivity.
  - intros i z Hz. rewrite !map2_nth. unfold f.
    rewrite (hard_code data 21 i z), (hard_code data 22 i z), (hard_code data 23 i z), (hard_code data 24 i z)
      by (auto; lia).
    eexists. split; [reflexivity|]. rewrite !orb_true_iff, !Z.eqb_eq. lia.
Qed.

(** * Structured input *)

Lemma index_of_ok n names i : index_of n names = Ok i -> nth_error names i = Some n.
Proof.
  revert i; induction names as [|m names IH]; intros i H; [discriminate|]. cbn [index_of] in H.
  destruct (String.eqb_spec n m) as [->|Hn].
  - injection H as <-. reflexivity.
  - apply bind_ok in H as (j & Hj & H). injection H as <-. cbn. apply IH; exact Hj.
Qed.

Lemma index_of_In n names : In n names -> exists i, index_of n names = Ok i.
Proof.
  induction names as [|m names IH]; intros H; [destruct H|]. cbn [index_of].
  destruct (String.eqb_spec n m) as [->|Hn]; [eauto|].
  destruct H as [->|H]; [contradiction|]. destruct (IH H) as (i & ->). cbn. eauto.
Qed.

Lemma dget_combine (f : string -> res string) names comps k v :
  mapM f names = Ok comps -> dget k (dict_of (combine comps names)) = Some v ->
  In v names /\ f v = Ok k.
Proof.
  intros HM H. rewrite dget_dict_of in H. apply dget_In in H. apply in_rev in H.
  apply mapM_ok in HM. revert H. induction HM as [|n c names comps Hn HM IH]; intros H; [destruct H|].
  cbn [combine] in H. destruct H as [E|H].
  - injection E as -> ->. split; [left; reflexivity | exact Hn].
  - destruct (IH H) as [H1 H2]. split; [right; exact H1 | exact H2].
Qed.

Lemma dget_combine_some (f : string -> res string) names comps k n :
  mapM f names = Ok comps -> In n names -> f n = Ok k ->
  exists v, dget k (dict_of (combine comps names)) = Some v.
Proof.
  intros HM Hin Hf. rewrite dget_dict_of.
  destruct (dget k (rev (combine comps names))) as [v|] eqn:E; [eauto|]. exfalso.
  apply dget_None in E. apply E. clear E. unfold dkeys. apply in_map_iff. exists (k, n). split; [reflexivity|].
  apply in_rev. rewrite rev_involutive. apply mapM_ok in HM.
  induction HM as [|m c names comps Hm HM IH]; [destruct Hin|]. cbn [combine]. destruct Hin as [->|Hin].
  - left. congruence.
  - right. apply IH; exact Hin.
Qed.

Section Reorder.
  Context {A : Type} (table : list (string * string)) (order : list string).
  Hypothesis order_self : forall c, In c order -> dget c table = Some c.

  (** Field [v] of the result is the field of the input called [n], an alias of component [c]. *)
  Definition from_alias (names : list string) (row : list A) (c : string) (v : A) : Prop :=
    exists n, dget n table = Some c /\ field_is names row n v.

  Lemma take_fields_ok wanted names (rows rows' : list (list A)) :
    take_fields wanted names rows = Ok rows' ->
    Forall2 (fun row row' => Forall2 (fun n v => field_is names row n v) wanted row') rows rows'.
  Proof.
    unfold take_fields. intros H. apply bind_ok in H as (idx & Hidx & H). apply mapM_ok in Hidx, H.
    induction H as [|row row' rows rows' Hr H IH]; constructor; [|exact IH]. clear IH H rows rows'.
    apply mapM_ok in Hr. revert row' Hr. induction Hidx as [|n i wanted idx Hn Hidx IH]; intros row' Hr; inversion Hr; subst; constructor.
    - exists i. split; [apply index_of_ok; exact Hn | apply get_ok; assumption].
    - apply IH; assumption.
  Qed.

  Lemma reorder_ok names (rows : list (list A)) wanted rows' :
    Forall (fun r => length r = length names) rows ->
    reorder table order names rows = Ok (wanted, rows') ->
    length wanted = length order /\
    Forall (fun n => exists c, dget n table = Some c) names /\
    Forall2 (fun row row' => Forall2 (from_alias names row) order row') rows rows'.
  Proof.
    intros HL H. unfold reorder, list_eqb in H. destruct (list_eq_dec string_dec names order) as [->|Hne].
    - injection H as <- <-. split; [reflexivity|]. split.
      + apply Forall_forall. intros n Hn. exists n. apply order_self; exact Hn.
      + apply Forall_nth_error in HL || idtac.
        induction rows as [|row rows IH]; constructor.
        * inversion HL as [|? ? Hl HL']; subst.
          assert (G : forall o r, length r = length o -> (forall c, In c o -> dget c table = Some c) ->
                    forall pre prer, length pre = length prer ->
                    Forall2 (from_alias (pre ++ o) (prer ++ r)) o r).
          { clear. induction o as [|c o IHo]; intros [|v r] Hl Hself pre prer Hp; try discriminate; constructor.
            - exists c. split; [apply Hself; left; reflexivity|]. exists (length pre). split.
              + rewrite nth_error_app2 by lia. rewrite Nat.sub_diag. reflexivity.
              + rewrite nth_error_app2 by lia. rewrite Hp, Nat.sub_diag. reflexivity.
            - specialize (IHo r). cbn in Hl. injection Hl as Hl. specialize (IHo Hl).
              specialize (IHo (fun c' Hc' => Hself c' (or_intror Hc'))).
              specialize (IHo (pre ++ [c]) (prer ++ [v])). rewrite !app_length, <- !app_assoc in IHo. cbn in IHo.
              apply IHo. lia. }
          apply (G order row Hl order_self [] [] eq_refl).
        * inversion HL; subst. apply IH; assumption.
    - apply bind_ok in H as (comps & Hc & H). apply bind_ok in H as (w & Hw & H).
      apply bind_ok in H as (r & Hr & H). injection H as <- <-.
      split; [eapply mapM_length; exact Hw|]. split.
      + apply Forall_forall. intros n Hn.
        destruct (proj1 (mapM_ok_all (lookup table) names) (ex_intro _ comps Hc) n Hn) as (c & Hl).
        unfold lookup in Hl. destruct (dget n table) eqn:E; [eauto | discriminate].
      + apply take_fields_ok in Hr. eapply Forall2_impl; [|exact Hr]. intros row row' HF. cbn beta in HF.
        apply mapM_ok in Hw. clear -Hc Hw HF. revert row' HF.
        induction Hw as [|c n order w Hn Hw IH]; intros row' HF; inversion HF; subst; constructor.
        * unfold lookup in Hn at 1. destruct (dget c (dict_of (combine comps names))) as [m|] eqn:E; [|discriminate].
          injection Hn as ->. destruct (dget_combine (lookup table) names comps c n Hc E) as [_ Hl].
          unfold lookup in Hl. destruct (dget n table) as [c'|] eqn:E'; [|discriminate]. injection Hl as ->.
          exists n. split; [exact E' | assumption].
        * apply IH; assumption.
  Qed.

  Lemma take_fields_total wanted names (rows : list (list A)) :
    Forall (fun r => length r = length names) rows -> (forall n, In n wanted -> In n names) ->
    exists rows', take_fields wanted names rows = Ok rows'.
  Proof.
    intros HL HW. unfold take_fields.
    destruct (proj2 (mapM_ok_all (fun n => index_of n names) wanted)) as (idx & Hidx).
    { intros n Hn. apply index_of_In. auto. }
    rewrite Hidx. cbn [bind]. apply mapM_ok_all. intros row Hrow. apply mapM_ok_all. intros i Hi.
    apply mapM_ok in Hidx. rewrite Forall_forall in HL. specialize (HL row Hrow).
    assert (Hlt : i < length names).
    { clear -Hidx Hi. induction Hidx as [|n j w idx Hn H IH]; [destruct Hi|].
      destruct Hi as [->|Hi]; [|auto]. apply index_of_ok in Hn. apply nth_error_Some. congruence. }
    unfold get. destruct (nth_error_in_range row i) as (x & ->); [lia | eauto].
  Qed.

  Lemma reorder_total names (rows : list (list A)) :
    Forall (fun r => length r = length names) rows ->
    Forall (fun n => exists c, dget n table = Some c) names ->
    Forall (fun c => exists n, In n names /\ dget n table = Some c) order ->
    exists wanted rows', reorder table order names rows = Ok (wanted, rows').
  Proof.
    intros HL HN HO. unfold reorder, list_eqb. destruct (list_eq_dec string_dec names order) as [->|Hne]; [eauto|].
    destruct (proj2 (mapM_ok_all (lookup table) names)) as (comps & Hc).
    { intros n Hn. rewrite Forall_forall in HN. destruct (HN n Hn) as (c & E). unfold lookup. rewrite E. eauto. }
    rewrite Hc. cbn [bind].
    destruct (proj2 (mapM_ok_all (lookup (dict_of (combine comps names))) order)) as (w & Hw).
    { intros c Hin. rewrite Forall_forall in HO. destruct (HO c Hin) as (n & Hn & E).
      destruct (dget_combine_some (lookup table) names comps c n Hc Hn) as (v & Hv); [unfold lookup; rewrite E; reflexivity|].
      unfold lookup. rewrite Hv. eauto. }
    rewrite Hw. cbn [bind].
    destruct (take_fields_total w names rows HL) as (rows' & ->); [|cbn [bind]; eauto].
    intros n Hn. apply mapM_ok in Hw. clear -Hc Hw Hn.
    induction Hw as [|c m order w Hm Hw IH]; [destruct Hn|]. destruct Hn as [->|Hn]; [|auto].
    unfold lookup in Hm. destruct (dget c (dict_of (combine comps names))) as [v|] eqn:E; [|discriminate].
    injection Hm as ->. apply (dget_combine _ _ _ _ _ Hc E).
  Qed.

  Lemma lookup_err d k e : lookup d k = Err e -> e = KeyError.
  Proof. unfold lookup. destruct (dget k d); congruence. Qed.

  Lemma reorder_err names (rows : list (list A)) e :
    Forall (fun r => length r = length names) rows ->
    reorder table order names rows = Err e -> e = KeyError.
  Proof.
    intros HL H. unfold reorder in H. destruct (list_eqb names order); [discriminate|].
    destruct (mapM (lookup table) names) as [comps|e1] eqn:E1; cbn [bind] in H.
    - destruct (mapM (lookup (dict_of (combine comps names))) order) as [w|e2] eqn:E2; cbn [bind] in H.
      + destruct (take_fields_total w names rows HL) as (r & Hr); [|rewrite Hr in H; discriminate].
        intros n Hn. apply mapM_ok in E2. clear -E1 E2 Hn.
        induction E2 as [|c m order w Hm Hw IH]; [destruct Hn|]. destruct Hn as [->|Hn]; [|auto].
        unfold lookup in Hm. destruct (dget c (dict_of (combine comps names))) as [v|] eqn:E; [|discriminate].
        injection Hm as ->. apply (dget_combine _ _ _ _ _ E1 E).
      + injection H as <-. apply mapM_err in E2 as (x & _ & Hx). eapply lookup_err; exact Hx.
    - injection H as <-. apply mapM_err in E1 as (x & _ & Hx). eapply lookup_err; exact Hx.
  Qed.
End Reorder.

Lemma momentum_self c : In c momentum_order -> dget c momentum_map = Some c.
Proof. intros H. cbn in H. destruct H as [<-|[<-|[<-|[<-|[]]]]]; reflexivity. Qed.
Lemma edge_self c : In c edge_order -> dget c edge_map = Some c.
Proof. intros H. cbn in H. destruct H as [<-|[<-|[]]]; reflexivity. Qed.

Ltac streqs H :=
  repeat match type of H with
  | (if String.eqb ?a ?b then _ else _) = _ => destruct (String.eqb_spec a b) as [->|]
  end.

Lemma momentum_alias n c : dget n momentum_map = Some c <-> pmu_alias c n.
Proof.
  unfold pmu_alias. split.
  - intros H. cbn [momentum_map dget] in H. streqs H; try discriminate; injection H as <-; tauto.
  - intros H. repeat match type of H with _ \/ _ => destruct H as [H|H] end; destruct H as [-> H];
      repeat match type of H with _ \/ _ => destruct H as [H|H] end; rewrite H; reflexivity.
Qed.

Lemma edge_alias_iff n c : dget n edge_map = Some c <-> edge_alias c n.
Proof.
  unfold edge_alias. split.
  - intros H. cbn [edge_map dget] in H. streqs H; try discriminate; injection H as <-; tauto.
  - intros H. repeat match type of H with _ \/ _ => destruct H as [H|H] end; destruct H as [-> H];
      repeat match type of H with _ \/ _ => destruct H as [H|H] end; rewrite H; reflexivity.
Qed.

(** * Shapes *)

Lemma chunks_concat {A} c (rows : list (list A)) fuel :
  0 < c -> Forall (fun r => length r = c) rows -> length rows <= fuel -> chunks fuel c (concat rows) = rows.
Proof.
  intros Hc H. revert fuel. induction H as [|r rows Hr H IH]; intros fuel Hf.
  - destruct fuel; reflexivity.
  - destruct fuel as [|fuel]; [cbn in Hf; lia|]. cbn [concat chunks].
    destruct (r ++ concat rows) as [|a l] eqn:E.
    + apply app_eq_nil in E as [-> _]. cbn in Hr. lia.
    + rewrite <- E. rewrite firstn_app, skipn_app, Hr, Nat.sub_diag.
      rewrite firstn_all2, skipn_all2 by lia. cbn [firstn skipn]. rewrite app_nil_r. cbn [app].
      f_equal. apply IH. cbn in Hf; lia.
Qed.

Lemma concat_length_const {A} c (rows : list (list A)) :
  Forall (fun r => length r = c) rows -> length (concat rows) = length rows * c.
Proof. induction 1 as [|r rows Hr H IH]; [reflexivity|]. cbn. rewrite app_length, IH, Hr. reflexivity. Qed.

Lemma reshape_mat {A} c (rows : list (list A)) :
  0 < c -> Forall (fun r => length r = c) rows -> reshape c (Mat c rows) = Ok (Mat c rows).
Proof.
  intros Hc H. unfold reshape. cbn [elems]. rewrite (concat_length_const c rows H).
  rewrite Nat.mod_mul by lia. cbn [Nat.eqb]. rewrite chunks_concat; auto. nia.
Qed.

Lemma chunks_spec {A} c fuel : 0 < c -> forall (l : list A),
  length l <= fuel -> (length l mod c = 0) ->
  Forall (fun r => length r = c) (chunks fuel c l) /\ concat (chunks fuel c l) = l.
Proof.
  intros Hc. induction fuel as [|fuel IH]; intros l Hl Hm.
  - destruct l; [split; [constructor | reflexivity] | cbn in Hl; lia].
  - cbn [chunks]. destruct l as [|a l]; [split; [constructor | reflexivity]|].
    set (l0 := a :: l) in *. assert (Hpos : 0 < length l0) by (cbn; lia).
    assert (Hge : c <= length l0).
    { destruct (Nat.lt_ge_cases (length l0) c) as [Hlt|]; [|assumption].
      rewrite Nat.mod_small in Hm by exact Hlt. lia. }
    destruct (IH (skipn c l0)) as [H1 H2].
    + rewrite skipn_length. lia.
    + rewrite skipn_length. rewrite <- Hm. replace (length l0) with ((length l0 - c) + 1 * c) at 2 by lia.
      rewrite Nat.mod_add by lia. reflexivity.
    + split.
      * constructor; [rewrite firstn_length; lia | exact H1].
      * cbn [concat]. rewrite H2. apply firstn_skipn.
Qed.

Lemma reshape_ok {A} c (x y : nd A) : 0 < c -> reshape c x = Ok y ->
  exists rows, y = Mat c rows /\ Forall (fun r => length r = c) rows /\ concat rows = elems x.
Proof.
  intros Hc H. unfold reshape in H. destruct (Nat.eqb_spec (length (elems x) mod c) 0) as [Hm|]; [|discriminate].
  injection H as <-. eexists. split; [reflexivity|]. apply chunks_spec; auto.
Qed.

Lemma nd_map_ok {A B} (f : A -> B) x : nd_ok x -> nd_ok (nd_map f x).
Proof.
  destruct x as [a|l|c rows]; cbn; auto. intros H. apply Forall_map. eapply Forall_impl; [|exact H].
  cbn. intros r Hr. rewrite map_length. exact Hr.
Qed.

Lemma nd_map_elems {A B} (f : A -> B) x : elems (nd_map f x) = map f (elems x).
Proof. destruct x as [a|l|c rows]; cbn; auto. rewrite concat_map. reflexivity. Qed.

Lemma nd_map_id {A} (x : nd A) : nd_map (fun a => a) x = x.
Proof. destruct x as [a|l|c rows]; cbn; rewrite ?map_id; auto. f_equal. apply map_id_in, Forall_forall. intros; apply map_id. Qed.

Lemma check_shape_elems {A} n (x y : nd A) : check_shape n x = Ok y -> elems y = elems x.
Proof.
  destruct x as [a|l|c rows]; cbn [check_shape].
  - destruct (Nat.eqb n 1); [intros H; injection H as <-; reflexivity | discriminate].
  - destruct (Nat.eqb n 1); [intros H; injection H as <-; reflexivity|].
    destruct (_ && _); [discriminate | intros H; injection H as <-; reflexivity].
  - destruct (Nat.eqb c 1).
    + destruct (Nat.eqb n 1); [intros H; injection H as <-; reflexivity|].
      destruct (_ && _); [discriminate | intros H; injection H as <-; reflexivity].
    + destruct (_ && _); [discriminate | intros H; injection H as <-; reflexivity].
Qed.

Lemma check_shape_ok {A} n (x y : nd A) : nd_ok x -> check_shape n x = Ok y -> nd_ok y.
Proof.
  destruct x as [a|l|c rows]; cbn [check_shape]; intros HO.
  - destruct (Nat.eqb n 1); [intros H; injection H as <-; exact I | discriminate].
  - destruct (Nat.eqb n 1); [intros H; injection H as <-; exact I|].
    destruct (_ && _); [discriminate | intros H; injection H as <-; exact I].
  - destruct (Nat.eqb c 1).
    + destruct (Nat.eqb n 1); [intros H; injection H as <-; exact I|].
      destruct (_ && _); [discriminate | intros H; injection H as <-; exact HO].
    + destruct (_ && _); [discriminate | intros H; injection H as <-; exact HO].
Qed.
