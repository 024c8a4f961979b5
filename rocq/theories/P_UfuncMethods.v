(** Property theorems about divmod and the ufunc methods accumulate, outer and at: C178-C180. *)
From Verif Require Import Prelude Dict Keys MaskTypes SpecArray Arrays ArraysProofs ArrayOps P_ArrayOps SpecUfunc UfuncMethods.

(** * C178 divmod *)

Lemma np_floor_quotient a b : b <> 0%Z -> floor_quotient a b (np_floordiv a b) (np_mod a b).
Proof.
  intros H. unfold floor_quotient, np_floordiv, np_mod. destruct (Z.eqb_spec b 0); [contradiction|]. split; [apply Z.div_mod; exact H|].
  destruct (Z.lt_total 0 b) as [L|[L|L]]; [left; apply Z.mod_pos_bound; exact L | congruence | right; apply Z.mod_neg_bound; exact L].
Qed.
Lemma quotient_fits M a b : (0 < M -> b <> 0 -> - M <= a < M -> - M <= b < M -> ~ (a = - M /\ b = -1) ->
  - M <= np_floordiv a b < M /\ - M <= np_mod a b < M)%Z.
Proof.
  intros HM H Ha Hb Hn. destruct (np_floor_quotient a b H) as (E & R). split; [|lia].
  set (q := np_floordiv a b) in *. set (r := np_mod a b) in *. clearbody q r.
  destruct (Z.eq_dec b (-1)) as [->|N1]; [assert (r = 0)%Z by lia; lia|].
  destruct (Z.eq_dec b 1) as [->|N2]; [assert (r = 0)%Z by lia; lia|].
  destruct R as [R|R]; nia.
Qed.

Lemma vec_pdg l : pdg_new (Plain (Vec l)) = Ok (Vec (map wrap32 l)).
Proof. reflexivity. Qed.
Lemma vec_status l : status_new (Plain (Vec l)) = Ok (Vec (map wrap16 l)).
Proof. reflexivity. Qed.

Definition divmod_right (fits : Z -> Prop) (smallest : Z) (x y q r : list Z) : Prop :=
  length q = length x /\ length r = length x /\
  forall i a b, nth_error x i = Some a -> nth_error y i = Some b -> fits a -> fits b -> b <> 0%Z -> ~ (a = smallest /\ b = -1)%Z ->
    exists qi ri, nth_error q i = Some qi /\ nth_error r i = Some ri /\ floor_quotient a b qi ri.

(** Two arrays of one class, or an array and a plain sequence: element by element, both results in the class. *)
Theorem C178_same_class : forall x y, length x = length y ->
  (exists q r, pdg_divmod (Vec x) (OArr (Vec y)) = Ok (Vec q, Vec r) /\ pdg_divmod (Vec x) (ORaw (Vec y)) = Ok (Vec q, Vec r) /\ divmod_right fits32 (- 2 ^ 31) x y q r) /\
  (exists q r, status_divmod (Vec x) (OArr (Vec y)) = Ok (Vec q, Vec r) /\ status_divmod (Vec x) (ORaw (Vec y)) = Ok (Vec q, Vec r) /\ divmod_right fits16 (- 2 ^ 15) x y q r).
Proof.
  intros x y H. unfold pdg_divmod, status_divmod, ufunc_divmod, nd_bin. rewrite !bc_same by exact H. cbn [bind fst snd]. rewrite !vec_pdg, !vec_status. cbn [bind].
  split; eexists; eexists; (split; [reflexivity|]); (split; [reflexivity|]); (split; [rewrite map_length, map2_length, H; apply Nat.min_id|]); (split; [rewrite map_length, map2_length, H; apply Nat.min_id|]);
    intros i a b Ha Hb Fa Fb Nb Nn; rewrite !nth_error_map', !map2_nth, Ha, Hb; cbn [option_map]; exists (np_floordiv a b), (np_mod a b).
  - destruct (quotient_fits (2 ^ 31) a b ltac:(lia) Nb Fa Fb Nn) as (F1 & F2). rewrite !wrap32_idem, !wrap32_id by assumption. repeat split; apply np_floor_quotient; exact Nb.
  - destruct (quotient_fits (2 ^ 15) a b ltac:(lia) Nb Fa Fb Nn) as (F1 & F2). rewrite !wrap32_id by (unfold fits32; lia). rewrite !wrap16_id by assumption. repeat split; apply np_floor_quotient; exact Nb.
Qed.
(** A number as divisor. *)
Theorem C178_scalar : forall x b, b <> 0%Z ->
  (fits32 b -> exists q r, pdg_divmod (Vec x) (ORaw (Sc b)) = Ok (Vec q, Vec r) /\ divmod_right fits32 (- 2 ^ 31) x (repeat b (length x)) q r) /\
  (fits16 b -> exists q r, status_divmod (Vec x) (ORaw (Sc b)) = Ok (Vec q, Vec r) /\ divmod_right fits16 (- 2 ^ 15) x (repeat b (length x)) q r).
Proof.
  intros x b Nb. unfold pdg_divmod, status_divmod, ufunc_divmod, nd_bin, nd_map. cbn [bind fst snd]. rewrite !vec_pdg, !vec_status. cbn [bind].
  assert (R : forall i b', nth_error (repeat b (length x)) i = Some b' -> b' = b) by (intros i b' Hb; apply nth_error_In in Hb; apply repeat_spec in Hb; exact Hb).
  split; intros Fb; eexists; eexists; (split; [reflexivity|]); (split; [rewrite !map_length; reflexivity|]); (split; [rewrite !map_length; reflexivity|]);
    intros i a b' Ha Hb Fa Fb' Nb' Nn; apply R in Hb; subst b'; rewrite !nth_error_map', Ha; cbn [option_map]; exists (np_floordiv a b), (np_mod a b).
  - destruct (quotient_fits (2 ^ 31) a b ltac:(lia) Nb Fa Fb Nn) as (F1 & F2). rewrite !wrap32_idem, !wrap32_id by assumption. repeat split; apply np_floor_quotient; exact Nb.
  - destruct (quotient_fits (2 ^ 15) a b ltac:(lia) Nb Fa Fb Nn) as (F1 & F2). rewrite !wrap32_id by (unfold fits32; lia). rewrite !wrap16_id by assumption. repeat split; apply np_floor_quotient; exact Nb.
Qed.
(** A zero divisor gives the quotient and the remainder 0 (numpy warns); the other elements are not disturbed. *)
Theorem C178_zero_divisor : forall x y, length x = length y ->
  exists q r q' r', pdg_divmod (Vec x) (OArr (Vec y)) = Ok (Vec q, Vec r) /\ status_divmod (Vec x) (OArr (Vec y)) = Ok (Vec q', Vec r') /\
    forall i, i < length x -> nth_error y i = Some 0%Z ->
      nth_error q i = Some 0%Z /\ nth_error r i = Some 0%Z /\ nth_error q' i = Some 0%Z /\ nth_error r' i = Some 0%Z.
Proof.
  intros x y H. unfold pdg_divmod, status_divmod, ufunc_divmod, nd_bin. rewrite !bc_same by exact H. cbn [bind fst snd]. rewrite !vec_pdg, !vec_status. cbn [bind].
  do 4 eexists. split; [reflexivity|]. split; [reflexivity|]. intros i Hi Hb. rewrite !nth_error_map', !map2_nth, Hb.
  destruct (nth_error x i) as [a|] eqn:Ha; [|apply nth_error_None in Ha; lia]. cbn [option_map]. repeat split; reflexivity.
Qed.
(** With an array of another class: right only while the quotient and the remainder fit the OTHER class. *)
Theorem C183_other_class_partial : forall x y, length x = length y ->
  (exists q r, pdg_divmod (Vec x) (OOther (Vec y)) = Ok (Vec q, Vec r) /\ length q = length x /\ length r = length x /\
     forall i a b qi ri, nth_error x i = Some a -> nth_error y i = Some b -> floor_quotient a b qi ri -> fits16 qi -> fits16 ri ->
       nth_error q i = Some qi /\ nth_error r i = Some ri) /\
  (exists q r, status_divmod (Vec x) (OOther (Vec y)) = Ok (Vec q, Vec r) /\ divmod_right fits16 (- 2 ^ 15) x y q r).
Proof.
  intros x y H. unfold pdg_divmod, status_divmod, ufunc_divmod, nd_bin. rewrite !bc_same by exact H. cbn [bind fst snd]. rewrite ?vec_pdg, ?vec_status. cbn [bind].
  split; eexists; eexists; (split; [reflexivity|]); (split; [rewrite !map_length, map2_length, H; apply Nat.min_id|]); (split; [rewrite !map_length, map2_length, H; apply Nat.min_id|]).
  - intros i a b qi ri Ha Hb E F1 F2. rewrite !nth_error_map', !map2_nth, Ha, Hb. cbn [option_map].
    assert (Nb : b <> 0%Z) by (destruct E as (_ & R); lia).
    destruct (np_floor_quotient a b Nb) as (E1 & R1). destruct E as (E2 & R2).
    assert (EQ : np_floordiv a b = qi /\ np_mod a b = ri).
    { unfold np_floordiv, np_mod. destruct (Z.eqb_spec b 0); [contradiction|]. split; symmetry; [eapply Z.div_unique | eapply Z.mod_unique]; [|exact E2| |exact E2]; tauto. }
    destruct EQ as (-> & ->). unfold fits16 in *. rewrite !(wrap32_id qi), !(wrap32_id ri) by (unfold fits32; lia). rewrite !wrap16_id by (unfold fits16; lia). rewrite !wrap32_id by (unfold fits32; lia). auto.
  - intros i a b Ha Hb Fa Fb Nb Nn; rewrite !nth_error_map', !map2_nth, Ha, Hb; cbn [option_map]; exists (np_floordiv a b), (np_mod a b).
    destruct (quotient_fits (2 ^ 15) a b ltac:(lia) Nb Fa Fb Nn) as (F1 & F2). rewrite !wrap32_id by (unfold fits32; rewrite ?wrap32_id by (unfold fits32; lia); lia). rewrite !wrap16_id by assumption. repeat split; apply np_floor_quotient; exact Nb.
Qed.
(** Otherwise the numbers are silently wrong: divmod of the code 100000 by the status 1. *)
Theorem C183_refuted : floor_quotient 100000 1 100000 0 /\ fits32 100000 /\
  pdg_divmod (Vec [100000%Z]) (OOther (Vec [1%Z])) = Ok (Vec [(-31072)%Z], Vec [0%Z]).
Proof. split; [unfold floor_quotient; lia|]. split; [unfold fits32; lia | reflexivity]. Qed.
Example C178_case : pdg_divmod (Vec [-13; 13]%Z) (OArr (Vec [4; -4]%Z)) = Ok (Vec [-4; -4]%Z, Vec [3; -3]%Z).
Proof. reflexivity. Qed.

(** * C179 accumulate and outer *)

Lemma running_nth {A} (f : A -> A -> A) : forall l acc i y, nth_error (running f acc l) i = Some y <->
  (i < length l /\ y = fold_left f (firstn (S i) l) acc).
Proof.
  induction l as [|x l IH]; intros acc i y; [split; [destruct i; discriminate | cbn; lia]|]. destruct i as [|i]; cbn [running nth_error firstn fold_left length].
  - split; [intros [= <-]; split; [lia | reflexivity] | intros (_ & ->); reflexivity].
  - rewrite IH. cbn [length firstn]. split; intros (H & E); (split; [lia | exact E]).
Qed.
Lemma accumulate_nth {A} (f : A -> A -> A) (l : list A) i y : nth_error (accumulate f l) i = Some y <-> i < length l /\ combines_first f i l y.
Proof.
  unfold combines_first. destruct l as [|a l]; cbn [accumulate].
  - split; [destruct i; discriminate | cbn; lia].
  - cbn [firstn]. assert (X : forall P, (exists a0 rest, a :: firstn i l = a0 :: rest /\ P a0 rest) <-> P a (firstn i l)).
    { intros P. split; [intros (a0 & rest & [= <- <-] & H); exact H | intros H; eauto]. }
    rewrite (X (fun a0 rest => y = fold_left f rest a0)). destruct i as [|i]; cbn [nth_error firstn fold_left length].
    + split; [intros [= <-]; split; [lia | reflexivity] | intros (_ & ->); reflexivity].
    + rewrite running_nth. split; intros (H & E); (split; [lia | exact E]).
Qed.
Lemma accumulate_length {A} (f : A -> A -> A) (l : list A) : length (accumulate f l) = length l.
Proof. destruct l as [|a l]; cbn [accumulate length]; [reflexivity|]. f_equal. revert a. induction l as [|x l IH]; intros a; cbn; auto. Qed.

(** Running results: entry i combines the first i + 1 elements; the class is kept. *)
Theorem C179_accumulate : forall (f : Z -> Z -> Z) (g : bool -> bool -> bool) (x : list Z) (m : list bool),
  (exists r, pdg_accumulate f x = Ok (Vec r) /\ length r = length x /\
     forall i y, i < length x -> combines_first f i x y -> fits32 y -> nth_error r i = Some y) /\
  (exists r, mask_accumulate g m = Ok (Vec r) /\ length r = length m /\ forall i y, i < length m -> combines_first g i m y -> nth_error r i = Some y).
Proof.
  intros f g x m. split.
  - unfold pdg_accumulate. rewrite vec_pdg. eexists. split; [reflexivity|]. rewrite map_length, accumulate_length. split; [reflexivity|].
    intros i y Hi Hc Hf. rewrite nth_error_map'. assert (E : nth_error (accumulate f x) i = Some y) by (apply accumulate_nth; auto). rewrite E. cbn. f_equal. apply wrap32_id; exact Hf.
  - unfold mask_accumulate, mask_new, converter, to_plain. cbn [bind nd_map check_shape Nat.eqb]. rewrite map_id. eexists. split; [reflexivity|]. rewrite accumulate_length. split; [reflexivity|].
    intros i y Hi Hc. apply accumulate_nth; auto.
Qed.
(** Four-momenta: component j of record i is the running result of that component over the records up to i. *)
Theorem C179_momentum : forall {A} (f : A -> A -> A) (x : list (list A)), Forall (fun r => length r = 4) x ->
  exists r, pmu_accumulate f 0 x = Ok (UArr (Mat 4 r)) /\ length r = length x /\
    forall i j y, i < length x -> j < 4 ->
      (exists a col, firstn (S i) x = a :: col /\ exists a0, nth_error a j = Some a0 /\
         exists c, Forall2 (fun row v => nth_error row j = Some v) col c /\ y = fold_left f c a0) ->
      exists row, nth_error r i = Some row /\ nth_error row j = Some y.
Proof.
  intros A f x Hx. unfold pmu_accumulate. cbn [Z.eqb orb].
  assert (R : Forall (fun r => length r = 4) (accumulate (map2 f) x)).
  { destruct Hx as [|a l Ha Hl]; [constructor|]. cbn [accumulate]. constructor; [exact Ha|]. revert a Ha. induction Hl as [|b l Hb Hl IH]; intros a Ha; [constructor|].
    cbn [running]. assert (L : length (map2 f a b) = 4) by (rewrite map2_length, Ha, Hb; reflexivity). constructor; [exact L | apply IH; exact L]. }
  rewrite pmu_new_rows by exact R. cbn [bind]. eexists. split; [reflexivity|]. split; [apply accumulate_length|].
  intros i j y Hi Hj (a & col & E & a0 & Ea & c & Hc & ->).
  exists (fold_left (map2 f) col a). split; [apply accumulate_nth; split; [exact Hi | exists a, col; auto]|].
  clear E. revert a a0 Ea. induction Hc as [|row v col c Hv Hc IH]; intros a a0 Ea; cbn [fold_left]; [exact Ea|]. apply IH. rewrite map2_nth, Ea, Hv. reflexivity.
Qed.
(** axis=-2 is axis=0. axis=1 and axis=-1 run along each record; the first comes back as a bare array, the second in the class. *)
Theorem C179_axes : forall {A} (f : A -> A -> A) (x : list (list A)), Forall (fun r => length r = 4) x ->
  pmu_accumulate f (-2) x = pmu_accumulate f 0 x /\
  (exists rows, pmu_accumulate f 1 x = Ok (URaw (Mat 4 rows)) /\ pmu_accumulate f (-1) x = Ok (UArr (Mat 4 rows)) /\
     Forall2 (fun row out => length out = 4 /\ forall j y, j < 4 -> combines_first f j row y -> nth_error out j = Some y) x rows) /\
  (forall axis, (axis < -2 \/ 1 < axis)%Z -> pmu_accumulate f axis x = Err ValueError).
Proof.
  intros A f x Hx. split; [reflexivity|]. split.
  - exists (map (accumulate f) x). split; [reflexivity|].
    assert (R : Forall (fun r => length r = 4) (map (accumulate f) x)). { clear -Hx. induction Hx; constructor; [rewrite accumulate_length; assumption | assumption]. }
    split; [unfold pmu_accumulate; cbn [Z.eqb Pos.eqb orb]; rewrite pmu_new_rows by exact R; reflexivity|].
    clear R. induction Hx as [|row x H _ IH]; constructor; [|exact IH]. split; [rewrite accumulate_length; exact H|]. intros j y Hj Hc. apply accumulate_nth. split; [lia | exact Hc].
  - intros axis H. unfold pmu_accumulate. destruct (Z.eqb_spec axis 0); [lia|]. destruct (Z.eqb_spec axis (-2)); [lia|]. destruct (Z.eqb_spec axis 1); [lia|]. destruct (Z.eqb_spec axis (-1)); [lia|]. reflexivity.
Qed.
(** A table of all pairs is what [outer] should give. It never does: with two columns or more it fails (and with one it is flat). *)
Theorem C184_outer_refuted : forall (f : Z -> Z -> Z) (g : Z -> Z -> bool) x y, x <> [] -> 2 <= length y ->
  pdg_outer f x y = Err ValueError /\ pdg_outer_cmp g x y = Err ValueError.
Proof.
  intros f g x y Hx Hy. unfold pdg_outer, pdg_outer_cmp, pdg_new, mask_new, converter, to_plain, outer. cbn [bind nd_map check_shape]. rewrite !map_length.
  destruct y as [|b [|b' y]]; cbn [length] in *; try lia. cbn [Nat.eqb negb]. destruct x; [contradiction|]. cbn [length Nat.eqb negb andb]. auto.
Qed.
Theorem C184_outer_partial : forall (f : Z -> Z -> Z) x b, exists r, pdg_outer f x [b] = Ok (Vec r) /\ length r = length x /\
  forall i a, nth_error x i = Some a -> fits32 (f a b) -> nth_error r i = Some (f a b).
Proof.
  intros f x b. unfold pdg_outer, pdg_new, converter, to_plain, outer. cbn [bind nd_map check_shape length Nat.eqb map].
  exists (map (fun a => wrap32 (wrap32 (f a b))) x). split; [|split; [apply map_length|]].
  - do 2 f_equal. induction x as [|a x IH]; cbn; [reflexivity|]. f_equal. exact IH.
  - intros i a Ha Hf. rewrite nth_error_map', Ha. cbn. f_equal. rewrite wrap32_idem. apply wrap32_id; exact Hf.
Qed.
Example C179_case : pdg_accumulate Z.add [1; 2; 3]%Z = Ok (Vec [1; 3; 6]%Z) /\ mask_accumulate orb [false; true; false] = Ok (Vec [false; true; true]) /\
  pdg_outer Z.add [1; 2]%Z [10; 20]%Z = Err ValueError /\ pdg_outer Z.add [1; 2]%Z [10]%Z = Ok (Vec [11; 12]%Z).
Proof. repeat split; reflexivity. Qed.

(** * C180 at *)

Lemma norm_idx_mod n i p : norm_idx n i = Ok p -> (i mod Z.of_nat n = Z.of_nat p)%Z /\ p < n.
Proof.
  intros H. pose proof (norm_idx_lt n i p H) as L. split; [|exact L]. unfold norm_idx in H.
  destruct ((- Z.of_nat n <=? i) && (i <? Z.of_nat n))%Z eqn:E; [|discriminate]. apply andb_prop in E as [E1 E2]. apply Z.leb_le in E1. apply Z.ltb_lt in E2.
  injection H as <-. symmetry. destruct (Z.ltb_spec i 0).
  - rewrite Z2Nat.id by lia. apply Z.mod_unique with (q := (-1)%Z); lia.
  - rewrite Z2Nat.id by lia. apply Z.mod_unique with (q := 0%Z); lia.
Qed.
Lemma norm_idx_ok n i : (- Z.of_nat n <= i < Z.of_nat n)%Z -> exists p, norm_idx n i = Ok p.
Proof.
  intros H. unfold norm_idx. destruct (Z.leb_spec (- Z.of_nat n) i); [|lia]. destruct (Z.ltb_spec i (Z.of_nat n)); [|lia]. cbn [andb]. eauto.
Qed.
Lemma at_loop_ok {A B} (f : A -> B -> A) : forall ivs x, Forall (fun iv => fst iv < length x) ivs ->
  exists r, at_loop f x ivs = Ok r /\ length r = length x /\
    forall p a, nth_error x p = Some a -> nth_error r p = Some (fold_left f (map snd (filter (fun iv => Nat.eqb (fst iv) p) ivs)) a).
Proof.
  induction ivs as [|(i, v) ivs IH]; intros x H; [exists x; cbn; auto|]. inversion H as [|? ? Hi Ht]; subst. cbn [fst] in Hi. cbn [at_loop].
  unfold get. destruct (nth_error x i) as [a0|] eqn:E; [|apply nth_error_None in E; lia]. cbn [bind].
  destruct (IH (set_nth x i (f a0 v))) as (r & E1 & L & R); [rewrite set_nth_length; exact Ht|].
  exists r. split; [exact E1|]. rewrite set_nth_length in L. split; [exact L|].
  intros p a Ha. cbn [filter fst]. destruct (Nat.eqb_spec i p) as [->|N]; cbn [map snd fold_left].
  - rewrite Ha in E. injection E as <-. apply R. rewrite set_nth_nth, Nat.eqb_refl, Ha. reflexivity.
  - apply R. rewrite set_nth_nth. destruct (Nat.eqb_spec i p); [contradiction|exact Ha].
Qed.

Lemma hits_positions {B} n : forall idx ps (vs : list B) p, Forall2 (fun i q => norm_idx n i = Ok q) idx ps -> 
  map snd (filter (fun iv => Nat.eqb (fst iv) p) (combine ps vs)) = hits n idx vs p.
Proof.
  intros idx ps vs p H. revert vs. unfold hits. induction H as [|i q idx ps Hi _ IH]; intros vs; [reflexivity|]. destruct vs as [|v vs]; [reflexivity|].
  cbn [combine filter fst]. destruct (norm_idx_mod n i q Hi) as (-> & _).
  destruct (Nat.eqb_spec q p) as [->|N].
  - rewrite Z.eqb_refl. cbn [map snd]. f_equal. apply IH.
  - destruct (Z.eqb_spec (Z.of_nat q) (Z.of_nat p)); [lia|]. apply IH.
Qed.

(** Every element is combined with all the values aimed at it, in order, repeated indices counting each time; nothing else changes. *)
Theorem C180_at : forall {A B} (f : A -> B -> A) (x : list A) (idx : list Z) (v : nd B) (vs : list B),
  Forall (fun i => (- Z.of_nat (length x) <= i < Z.of_nat (length x))%Z) idx ->
  (v = Vec vs /\ length vs = length idx \/ exists b, (v = Sc b \/ v = Vec [b]) /\ vs = repeat b (length idx)) ->
  exists r, ufunc_at f x idx v = Ok r /\ length r = length x /\
    forall p a, nth_error x p = Some a -> nth_error r p = Some (fold_left f (hits (length x) idx vs p) a).
Proof.
  intros A B f x idx v vs Hi Hv. unfold ufunc_at.
  assert (E : exists ps, mapM (norm_idx (length x)) idx = Ok ps). { apply mapM_ok_all. intros i Hin. rewrite Forall_forall in Hi. apply norm_idx_ok, Hi, Hin. }
  destruct E as (ps & E). rewrite E. cbn [bind]. apply mapM_ok in E.
  assert (LP : length ps = length idx) by (clear -E; induction E; cbn; congruence).
  assert (PL : forall (l : list B), Forall (fun iv => fst iv < length x) (combine ps l)).
  { intros l. apply Forall_forall. intros (q, b) Hq. apply in_combine_l in Hq. cbn [fst]. clear -E Hq. induction E as [|i p idx ps H _ IH]; [destruct Hq|].
    destruct Hq as [<-|Hq]; [apply (norm_idx_lt _ i); exact H | apply IH; exact Hq]. }
  destruct Hv as [(-> & LV)|(b & Hv & ->)].
  - rewrite LV, LP, Nat.eqb_refl. destruct (at_loop_ok f (combine ps vs) x (PL vs)) as (r & E1 & L & R). exists r. split; [exact E1|]. split; [exact L|].
    intros p a Ha. rewrite (R p a Ha). rewrite (hits_positions (length x) idx ps vs p E). reflexivity.
  - assert (EC : map (fun p => (p, b)) ps = combine ps (repeat b (length idx))). { rewrite <- LP. clear. induction ps; cbn; [reflexivity|]. f_equal. assumption. }
    destruct (at_loop_ok f (combine ps (repeat b (length idx))) x (PL _)) as (r & E1 & L & R). exists r. split; [|split; [exact L|]].
    { destruct Hv as [-> | ->]; [rewrite EC; exact E1|]. cbn [length]. destruct (Nat.eqb_spec 1 (length ps)) as [E2|E2]; [|rewrite EC; exact E1].
      rewrite <- LP, <- E2 in E1. exact E1. }
    intros p a Ha. rewrite (R p a Ha). rewrite (hits_positions (length x) idx ps _ p E). reflexivity.
Qed.
(** np.add.at on codes: the exact sum whenever it fits, whatever wraps on the way. *)
Lemma wrap_add a b : wrap32 (wrap32 a + b) = wrap32 (a + b).
Proof.
  unfold wrap32, wrap. change (2 ^ 32)%Z with 4294967296%Z. change (2 ^ (32 - 1))%Z with 2147483648%Z. f_equal.
  replace ((a + 2147483648) mod 4294967296 - 2147483648 + b + 2147483648)%Z with ((a + 2147483648) mod 4294967296 + b)%Z by ring.
  rewrite Zplus_mod_idemp_l. f_equal. ring.
Qed.
Lemma fold_wrap : forall l a, wrap32 (fold_left (fun a b => wrap32 (a + b)) l a) = wrap32 (a + zsum l).
Proof.
  induction l as [|b l IH]; intros a; cbn [fold_left zsum fold_right]; [f_equal; lia|]. rewrite IH. rewrite wrap_add. f_equal. unfold zsum. lia.
Qed.
Theorem C180_add_at : forall (x idx vs : list Z), Forall fits32 x -> length vs = length idx ->
  Forall (fun i => (- Z.of_nat (length x) <= i < Z.of_nat (length x))%Z) idx ->
  exists r, pdg_at Z.add x idx (Vec vs) = Ok r /\ length r = length x /\
    forall p a, nth_error x p = Some a -> fits32 (a + zsum (hits (length x) idx vs p)) -> nth_error r p = Some (a + zsum (hits (length x) idx vs p))%Z.
Proof.
  intros x idx vs Hx LV Hi. destruct (C180_at (fun a b => wrap32 (a + b)) x idx (Vec vs) vs Hi (or_introl (conj eq_refl LV))) as (r & E & L & R).
  exists r. split; [exact E|]. split; [exact L|]. intros p a Ha Hf. rewrite (R p a Ha). f_equal. set (h := hits (length x) idx vs p) in *.
  rewrite <- (wrap32_id (a + zsum h)) by exact Hf. rewrite <- fold_wrap. symmetry. destruct h as [|b h] using rev_ind.
  - cbn [fold_left]. apply wrap32_id. rewrite Forall_forall in Hx. apply Hx. eapply nth_error_In; exact Ha.
  - rewrite fold_left_app. cbn [fold_left]. apply wrap32_idem.
Qed.
(** One bad index anywhere: IndexError, nothing is written. *)
Theorem C180_bad_index : forall {A B} (f : A -> B -> A) x idx v i, In i idx -> ~ (- Z.of_nat (length x) <= i < Z.of_nat (length x))%Z ->
  ufunc_at f x idx v = Err IndexError.
Proof.
  intros A B f x idx v i Hi Hn. unfold ufunc_at. assert (E : mapM (norm_idx (length x)) idx = Err IndexError).
  { assert (N : forall j, norm_idx (length x) j = Err IndexError \/ exists p, norm_idx (length x) j = Ok p) by (intros j; unfold norm_idx; destruct ((_ && _)%bool); eauto).
    induction idx as [|j idx IH]; [destruct Hi|]. cbn [mapM]. destruct (N j) as [E|(p & E)]; rewrite E; cbn [bind]; [reflexivity|].
    destruct Hi as [->|Hi].
    - exfalso. unfold norm_idx in E. destruct (Z.leb_spec (- Z.of_nat (length x)) i); [|discriminate E]. destruct (Z.ltb_spec i (Z.of_nat (length x))); [|discriminate E]. lia.
    - rewrite IH by exact Hi. reflexivity. }
  rewrite E. reflexivity.
Qed.
(** Values that can be matched with the indices in no way: a flat array of another length, or a two-dimensional one. *)
Theorem C180_bad_values : forall {A B} (f : A -> B -> A) x idx v,
  Forall (fun i => (- Z.of_nat (length x) <= i < Z.of_nat (length x))%Z) idx ->
  ((exists l, v = Vec l /\ length l <> length idx /\ length l <> 1) \/ exists w rows, v = Mat w rows) -> ufunc_at f x idx v = Err ValueError.
Proof.
  intros A B f x idx v Hi Hv. unfold ufunc_at.
  assert (E : exists ps, mapM (norm_idx (length x)) idx = Ok ps). { apply mapM_ok_all. intros i Hin. rewrite Forall_forall in Hi. apply norm_idx_ok, Hi, Hin. }
  destruct E as (ps & E). rewrite E. cbn [bind]. apply mapM_ok in E.
  assert (LP : length ps = length idx) by (clear -E; induction E; cbn; congruence).
  destruct Hv as [(l & -> & L1 & L2)|(w & rows & ->)]; [|reflexivity]. rewrite LP. destruct (Nat.eqb_spec (length l) (length idx)); [contradiction|].
  destruct l as [|b [|b' l]]; cbn [length] in L2; try reflexivity; lia.
Qed.
Example C180_case : pdg_at Z.add [1; 2; 3]%Z [0; -1; 0]%Z (Vec [10; 20; 30]%Z) = Ok [41; 2; 23]%Z /\ pdg_at Z.add [1; 2]%Z [0; 2]%Z (Sc 1%Z) = Err IndexError.
Proof. split; reflexivity. Qed.

Print Assumptions C178_same_class.
Print Assumptions C178_scalar.
Print Assumptions C183_other_class_partial.
Print Assumptions C183_refuted.
Print Assumptions C179_accumulate.
Print Assumptions C179_momentum.
Print Assumptions C184_outer_refuted.
Print Assumptions C184_outer_partial.
Print Assumptions C180_at.
Print Assumptions C180_add_at.
Print Assumptions C180_bad_index.
Print Assumptions C180_bad_values.
Print Assumptions C178_zero_divisor.
Print Assumptions C179_axes.
