(** Properties C81 - C85, C100, C101: matrix.py. *)
From Verif Require Import Prelude Keys SpecReal SpecDist SpecMatrix RealBase Kinem KinemProofs Par DeltaR DeltaRProofs P_Kinem P_DeltaR Matrix.
From Coq Require Import Permutation Sorted.
Open Scope R_scope.

(** ** Entries *)
Lemma at2_map2 {A B C} (f : A -> B -> C) M N i j : at2 (map2 (map2 f) M N) i j = match at2 M i j, at2 N i j with Some a, Some b => Some (f a b) | _, _ => None end.
Proof.
  unfold at2. rewrite map2_nth. destruct (nth_error M i) as [r|]; [|reflexivity]. destruct (nth_error N i) as [s|]; [|destruct (nth_error r j); reflexivity]. apply map2_nth.
Qed.
Lemma at2_map {A B} (f : A -> B) M i j : at2 (map (map f) M) i j = option_map f (at2 M i j).
Proof. unfold at2. rewrite nth_error_map'. destruct (nth_error M i); [|reflexivity]. cbn [option_map]. apply nth_error_map'. Qed.
Lemma at2_build {A} n m (f : nat -> nat -> A) i j : at2 (build n m f) i j = if (Nat.ltb i n && Nat.ltb j m)%bool then Some (f i j) else None.
Proof.
  unfold at2, build. rewrite nth_error_map', seq_nth_error. destruct (Nat.ltb i n); [|reflexivity]. cbn [option_map andb]. rewrite nth_error_map', seq_nth_error. destruct (Nat.ltb j m); reflexivity.
Qed.
Lemma at2_fill_from {A} (v : A) : forall M k i j, at2 (fill_from k M v) i j = if Nat.eqb (k + i) j then option_map (fun _ => v) (at2 M i j) else at2 M i j.
Proof.
  induction M as [|r M IH]; intros k i j; [unfold at2; destruct i; cbn; destruct (Nat.eqb _ j); reflexivity|].
  destruct i as [|i]; cbn [fill_from].
  - unfold at2. cbn [nth_error]. rewrite set_nth_nth, Nat.add_0_r. destruct (Nat.eqb k j); [|reflexivity]. destruct (nth_error r j); reflexivity.
  - change (at2 (set_nth r k v :: fill_from (S k) M v) (S i) j) with (at2 (fill_from (S k) M v) i j). rewrite IH. replace (S k + i)%nat with (k + S i)%nat by lia. reflexivity.
Qed.
Lemma at2_fill {A} (v : A) M i j : at2 (fill_diagonal M v) i j = if Nat.eqb i j then option_map (fun _ => v) (at2 M i j) else at2 M i j.
Proof. apply at2_fill_from. Qed.
Lemma at2_shape {A} n m (M : list (list A)) i j : shape n m M -> (i < n)%nat -> (j < m)%nat -> exists x, at2 M i j = Some x.
Proof.
  intros (L & F) Hi Hj. unfold at2. destruct (nth_error M i) as [r|] eqn:E; [|apply nth_error_None in E; lia].
  rewrite Forall_forall in F. specialize (F r (nth_error_In _ _ E)). destruct (nth_error r j) as [x|] eqn:E'; [eauto|apply nth_error_None in E'; lia].
Qed.
Lemma shape_build {A} n m (f : nat -> nat -> A) : shape n m (build n m f).
Proof. unfold build. split; [rewrite map_length, seq_length; reflexivity|]. apply Forall_forall. intros r Hr. apply in_map_iff in Hr as (i & <- & _). rewrite map_length, seq_length. reflexivity. Qed.
Lemma shape_fill {A} n m (v : A) : forall M, shape n m M -> shape n m (fill_diagonal M v).
Proof.
  intros M (L & F). unfold fill_diagonal. assert (G : forall k, length (fill_from k M v) = length M /\ Forall (fun r => length r = m) (fill_from k M v)).
  { clear L. induction F as [|r M HR HF IH]; intros k; [split; [reflexivity|constructor]|]. cbn [fill_from length]. destruct (IH (S k)) as (A1 & A2).
    split; [congruence|]. constructor; [rewrite set_nth_length; exact HR|exact A2]. }
  destruct (G O) as (A1 & A2). split; [congruence|exact A2].
Qed.
Lemma shape_map2 {A B C} (f : A -> B -> C) n m M N : shape n m M -> shape n m N -> shape n m (map2 (map2 f) M N).
Proof.
  intros (L1 & F1) (L2 & F2). split; [rewrite map2_length; lia|]. apply Forall_nth_error. intros i r Hi. rewrite map2_nth in Hi.
  destruct (nth_error M i) as [a|] eqn:Ea; [|discriminate]. destruct (nth_error N i) as [b|] eqn:Eb; [|discriminate]. injection Hi as <-.
  rewrite map2_length. rewrite Forall_forall in F1, F2. rewrite (F1 a), (F2 b) by (eapply nth_error_In; eassumption). lia.
Qed.
Lemma shape_map {A B} (f : A -> B) n m M : shape n m M -> shape n m (map (map f) M).
Proof. intros (L & F). split; [rewrite map_length; exact L|]. apply Forall_forall. intros r Hr. apply in_map_iff in Hr as (s & <- & Hs). rewrite map_length. rewrite Forall_forall in F. apply F, Hs. Qed.
Lemma eltb_spec a b : eltb a b = true <-> ieee_lt a b.
Proof. destruct a as [x| | |], b as [y| | |]; cbn; try (split; [discriminate|tauto]); try (split; [constructor|reflexivity]); try tauto. destruct (Rlt_dec x y); split; intros; try discriminate; try lra; auto. Qed.

(** ** C81 *)
(** [near x]: the entry x is on the right side of the cut. *)
Definition on_side (mode : string) (cut x : ext) : Prop := if String.eqb mode "max" then ieee_lt x cut else ieee_lt cut x.
Theorem C81_unweighted : forall n M cut mode self_loop, shape n n M -> mode = "max"%string \/ mode = "min"%string ->
  exists B, cut_adj M cut mode self_loop FFalse = Ok (Bools B) /\ shape n n B /\
  (forall i j x, i <> j -> at2 M i j = Some x -> exists b, at2 B i j = Some b /\ (b = true <-> on_side mode cut x)) /\
  (forall i, (i < n)%nat -> at2 B i i = Some (match self_loop with FFalse => false | _ => true end)).
Proof.
  intros n M cut mode sl HM Hmode.
  set (t := fun x => if String.eqb mode "max" then eltb x cut else eltb cut x).
  set (adj := map2 (map2 (fun (b : bool) x => if b then Fin 1 else Fin 0)) (map (map t) M) M).
  assert (S1 : shape n n adj) by (apply shape_map2; [apply shape_map|]; exact HM).
  exists (map (map nonzero) (match sl with FFalse => fill_diagonal adj (Fin 0) | _ => fill_diagonal adj (Fin 1) end)). split; [|split; [|split]].
  - unfold cut_adj. destruct Hmode as [-> | ->]; reflexivity.
  - apply shape_map. destruct sl; apply shape_fill, S1.
  - intros i j x Hij Hx. rewrite at2_map. assert (E : at2 (match sl with FFalse => fill_diagonal adj (Fin 0) | _ => fill_diagonal adj (Fin 1) end) i j = Some (if t x then Fin 1 else Fin 0)).
    { destruct sl; rewrite at2_fill; destruct (Nat.eqb_spec i j); try contradiction; unfold adj; rewrite at2_map2, at2_map, Hx; reflexivity. }
    rewrite E. eexists. split; [reflexivity|]. unfold on_side, t. destruct (String.eqb mode "max"); rewrite <- eltb_spec; [destruct (eltb x cut)|destruct (eltb cut x)]; cbn;
      match goal with |- context [Req_EM_T ?a ?b] => destruct (Req_EM_T a b) end; try lra; split; congruence.
  - intros i Hi. rewrite at2_map. destruct (at2_shape _ _ _ _ _ S1 Hi Hi) as (x & Hx).
    destruct sl; rewrite at2_fill, Nat.eqb_refl, Hx; cbn; try (destruct (Req_EM_T 1 0); [lra|reflexivity]). destruct (Req_EM_T 0 0); [reflexivity|lra].
Qed.
Theorem C81_weighted : forall n M cut mode self_loop, shape n n M -> mode = "max"%string \/ mode = "min"%string ->
  exists A, cut_adj M cut mode self_loop FTrue = Ok (Floats A) /\ shape n n A /\
  (forall i j x, i <> j -> at2 M i j = Some x ->
     (on_side mode cut x -> at2 A i j = Some x) /\ (~ on_side mode cut x -> at2 A i j = Some (Fin 0))) /\
  (forall i, (i < n)%nat -> at2 A i i = Some (Fin (match self_loop with FFalse => 0 | _ => 1 end))).
Proof.
  intros n M cut mode sl HM Hmode.
  set (t := fun x => if String.eqb mode "max" then eltb x cut else eltb cut x).
  set (adj := map2 (map2 (fun (b : bool) x => if b then x else Fin 0)) (map (map t) M) M).
  assert (S1 : shape n n adj) by (apply shape_map2; [apply shape_map|]; exact HM).
  exists (match sl with FFalse => fill_diagonal adj (Fin 0) | _ => fill_diagonal adj (Fin 1) end). split; [|split; [|split]].
  - unfold cut_adj. destruct Hmode as [-> | ->]; reflexivity.
  - destruct sl; apply shape_fill, S1.
  - intros i j x Hij Hx. assert (E : at2 (match sl with FFalse => fill_diagonal adj (Fin 0) | _ => fill_diagonal adj (Fin 1) end) i j = Some (if t x then x else Fin 0)).
    { destruct sl; rewrite at2_fill; destruct (Nat.eqb_spec i j); try contradiction; unfold adj; rewrite at2_map2, at2_map, Hx; reflexivity. }
    rewrite E. unfold on_side, t. destruct (String.eqb mode "max"); rewrite <- eltb_spec; [destruct (eltb x cut)|destruct (eltb cut x)]; split; congruence.
  - intros i Hi. destruct (at2_shape _ _ _ _ _ S1 Hi Hi) as (x & Hx).
    destruct sl; rewrite at2_fill, Nat.eqb_refl, Hx; reflexivity.
Qed.
Theorem C81_errors : forall M cut mode self_loop weighted, cut_adj M cut mode self_loop weighted = Err ValueError <->
  (mode <> "max"%string /\ mode <> "min"%string) \/ weighted = FOther.
Proof.
  intros M cut mode sl w. unfold cut_adj. destruct (String.eqb_spec mode "max") as [->|N1].
  { cbn [bind]. destruct w; cbn [bind]; (split; [try discriminate; auto|intros [(F & _)|F]; try (exfalso; apply F; reflexivity); try discriminate; reflexivity]). }
  destruct (String.eqb_spec mode "min") as [->|N2].
  { cbn [bind]. destruct w; cbn [bind]; (split; [try discriminate; auto|intros [(_ & F)|F]; try (exfalso; apply F; reflexivity); try discriminate; reflexivity]). }
  split; [intros _; left; auto|reflexivity].
Qed.
Example C81_demo : shape 2 2 [[Fin 0; Fin 3]; [PInf; Fin 0]] /\ on_side "max" (Fin 4) (Fin 3) /\ ~ on_side "max" (Fin 4) PInf.
Proof. split; [split; [reflexivity|repeat constructor]|]. cbn. split; [lra|tauto]. Qed.

(** ** C82 *)
Theorem C82_complete : forall A (one zero : A) num self_loop, (0 <= num)%Z ->
  exists G, fc_adj one zero num self_loop = Ok G /\ shape (Z.to_nat num) (Z.to_nat num) G /\
  forall i j, (Z.of_nat i < num)%Z -> (Z.of_nat j < num)%Z ->
    at2 G i j = Some (if Nat.eqb i j then match self_loop with FFalse => zero | _ => one end else one).
Proof.
  intros A one zero num sl Hn. unfold fc_adj. destruct (Z.ltb_spec num 0); [lia|].
  set (adj := build (Z.to_nat num) (Z.to_nat num) (fun _ _ => one)).
  exists (match sl with FFalse => fill_diagonal adj zero | _ => adj end). split; [reflexivity|]. split; [destruct sl; try apply shape_fill; apply shape_build|].
  intros i j Hi Hj. assert (E : at2 adj i j = Some one).
  { unfold adj. rewrite at2_build. destruct (Nat.ltb_spec i (Z.to_nat num)); [|lia]. destruct (Nat.ltb_spec j (Z.to_nat num)); [|lia]. reflexivity. }
  destruct sl; rewrite ?at2_fill, E; destruct (Nat.eqb i j); reflexivity.
Qed.
Theorem C82_negative : forall A (one zero : A) num self_loop, (num < 0)%Z -> fc_adj one zero num self_loop = Err ValueError.
Proof. intros. unfold fc_adj. destruct (Z.ltb_spec num 0); [reflexivity|lia]. Qed.

(** ** C83 *)
Lemma sort_le_trans a b c : sort_le a b -> sort_le b c -> sort_le a c.
Proof. destruct a, b, c; cbn; intros; try tauto; lra. Qed.
Lemma put_along_nth {A} (f : nat -> A) idx : forall col i, (forall x, In x idx -> (x < length col)%nat) ->
  nth_error (put_along col idx (map f idx)) i = if in_dec Nat.eq_dec i idx then Some (f i) else nth_error col i.
Proof.
  unfold put_along. induction idx as [|x idx IH]; intros col i HR; [reflexivity|]. cbn [map combine fold_left fst snd].
  rewrite IH by (intros y Hy; rewrite set_nth_length; apply HR; right; exact Hy). rewrite set_nth_nth.
  destruct (in_dec Nat.eq_dec i idx) as [I1|N1]; destruct (in_dec Nat.eq_dec i (x :: idx)) as [I2|N2]; try reflexivity.
  - exfalso. apply N2. right; exact I1.
  - destruct I2 as [->|I2]; [|contradiction]. rewrite Nat.eqb_refl. destruct (nth_error col i) eqn:E; [reflexivity|]. apply nth_error_None in E. specialize (HR i (or_introl eq_refl)). lia.
  - destruct (Nat.eqb_spec x i) as [->|]; [|reflexivity]. exfalso. apply N2. left; reflexivity.
Qed.
Lemma argpartition_nearest col k p : (k < length col)%nat -> argpartition col k p -> nearest (length col) k (fun i => nth i col NaN) (firstn k p).
Proof.
  intros Hk (HP & HS). assert (LP : length p = length col) by (rewrite (Permutation_length HP), seq_length; reflexivity).
  assert (ND : NoDup p) by (eapply Permutation_NoDup; [symmetry; exact HP|apply seq_NoDup]).
  split; [|split; [|split]].
  - rewrite <- (firstn_skipn k p) in ND. clear - ND. revert ND. generalize (firstn k p), (skipn k p). intros a b. induction a as [|x a IH]; cbn; intros H; [constructor|].
    inversion H; subst. constructor; [intros F; apply H2, in_or_app; left; exact F|auto].
  - rewrite firstn_length. lia.
  - intros i Hi. assert (In i p) by (rewrite <- (firstn_skipn k p); apply in_or_app; left; exact Hi). apply (Permutation_in _ HP), in_seq in H. lia.
  - intros i i' Hi Hi' Hn. assert (I1 : In i' p) by (apply (Permutation_in _ (Permutation_sym HP)), in_seq; lia).
    apply In_nth with (d := O) in I1 as (b & Hb & <-). apply In_nth with (d := O) in Hi as (a & Ha & <-). rewrite firstn_length in Ha.
    assert (EA : nth a (firstn k p) O = nth a p O).
    { rewrite <- (firstn_skipn k p) at 2. rewrite app_nth1; [reflexivity|rewrite firstn_length; lia]. }
    rewrite EA. assert (KB : (k <= b)%nat).
    { destruct (Nat.le_gt_cases k b) as [|F]; [assumption|]. exfalso. apply Hn. rewrite <- (firstn_skipn k p) at 1. rewrite app_nth1 by (rewrite firstn_length; lia). apply nth_In. rewrite firstn_length; lia. }
    destruct (HS a ltac:(lia)) as (HA & _). destruct (HS b ltac:(lia)) as (_ & HB). cbv zeta in HA, HB.
    eapply sort_le_trans; [apply HA; lia|apply HB; exact KB].
Qed.

Definition entry (M : list (list ext)) (i j : nat) : ext := match at2 M i j with Some x => x | None => NaN end.
Lemma column_entry n M j i : shape n n M -> (j < n)%nat -> nth i (column M j) NaN = entry M i j.
Proof.
  intros HM Hj. unfold entry, column, at2. destruct (nth_error M i) as [r|] eqn:E.
  - erewrite nth_error_nth by (rewrite nth_error_map', E; reflexivity). destruct HM as (_ & F). rewrite Forall_forall in F. specialize (F r (nth_error_In _ _ E)).
    destruct (nth_error r j) as [x|] eqn:Er; [apply nth_error_nth, Er|apply nth_error_None in Er; lia].
  - apply nth_overflow. rewrite map_length. apply nth_error_None, E.
Qed.
(** Entry for target i of particle j's neighbour list: particle j's column, or its row when row=False. *)
Definition link {A} (row : pyflag) (G : list (list A)) (i j : nat) : option A := match row with FFalse => at2 G j i | _ => at2 G i j end.

(** What knn_adj computes, before the diagonal. *)
Lemma knn_raw n M k sl w row dt out : shape n n M -> w <> FTrue \/ dt <> DOther ->
  let kk := match sl with FFalse => (k + 1)%Z | _ => k end in
  (0 <= kk < Z.of_nat n)%Z -> knn_adj M k sl w row dt out ->
  exists nb, (forall j, (j < n)%nat -> nearest n (Z.to_nat kk) (fun i => entry M i j) (nb j)) /\
  let clean := fun (A : Type) (z : A) (i j : nat) (x : A) => match sl with FFalse => if Nat.eqb i j then z else x | _ => x end in
  match w with
  | FTrue => exists G, out = Ok (Floats G) /\ shape n n G /\
      forall i j, (i < n)%nat -> (j < n)%nat -> link row G i j = Some (clean ext (Fin 0) i j (if in_dec Nat.eq_dec i (nb j) then entry M i j else Fin 0))
  | _ => exists G, out = Ok (Bools G) /\ shape n n G /\
      forall i j, (i < n)%nat -> (j < n)%nat -> link row G i j = Some (clean bool false i j (if in_dec Nat.eq_dec i (nb j) then true else false))
  end.
Proof.
  intros HM HD kk Hk H. unfold knn_adj in H. fold kk in H.
  assert (LM : length M = n) by apply HM. assert (LR : (match M with [] => O | r :: _ => length r end) = n).
  { destruct M as [|r M]; [exact LM|]. destruct HM as (_ & F). exact (Forall_inv F). }
  rewrite LM, LR in H. unfold norm_kth in H.
  destruct (Z.leb_spec (- Z.of_nat n) kk); [|lia]. destruct (Z.ltb_spec kk (Z.of_nat n)); [|lia]. cbn [andb] in H. destruct (Z.ltb_spec kk 0); [lia|].
  destruct H as (knn & LK & HP & H).
  set (nb := fun j => nth j (map (head kk) knn) []).
  assert (NB : forall j, (j < n)%nat -> nearest n (Z.to_nat kk) (fun i => nth i (column M j) NaN) (nb j)).
  { intros j Hj. destruct (nth_error knn j) as [p|] eqn:Ep; [|apply nth_error_None in Ep; lia]. specialize (HP j p Ep).
    unfold nb. erewrite nth_error_nth by (rewrite nth_error_map', Ep; reflexivity). unfold head. destruct (Z.ltb_spec kk 0); [lia|].
    assert (LC : length (column M j) = n) by (unfold column; rewrite map_length; exact LM).
    rewrite <- LC at 1. apply argpartition_nearest; [lia|exact HP]. }
  exists nb. split.
  { intros j Hj. destruct (NB j Hj) as (A1 & A2 & A3 & A4). split; [exact A1|]. split; [exact A2|]. split; [exact A3|]. intros i i' Hi Hi' Hn.
    rewrite <- !(column_entry n M j) by assumption. apply A4; assumption. }
  assert (FIN : forall (A : Type) (z : A) (f : nat -> nat -> A) (cols : list (list A)),
    (forall i j, (i < n)%nat -> (j < n)%nat -> nth i (nth j cols []) z = if in_dec Nat.eq_dec i (nb j) then f i j else z) ->
    let adj := build n n (fun i j => nth i (nth j cols []) z) in
    let adj := match row with FFalse => transpose z n n adj | _ => adj end in
    let G := match sl with FFalse => fill_diagonal adj z | _ => adj end in
    shape n n G /\ forall i j, (i < n)%nat -> (j < n)%nat ->
      link row G i j = Some (match sl with FFalse => if Nat.eqb i j then z else if in_dec Nat.eq_dec i (nb j) then f i j else z | _ => if in_dec Nat.eq_dec i (nb j) then f i j else z end)).
  { intros A z f cols HC adj adj' G. assert (SA : shape n n adj) by apply shape_build.
    assert (SA' : shape n n adj') by (unfold adj'; destruct row; try exact SA; apply shape_build).
    split; [unfold G; destruct sl; try exact SA'; apply shape_fill, SA'|]. intros i j Hi Hj.
    assert (E1 : at2 adj i j = Some (if in_dec Nat.eq_dec i (nb j) then f i j else z)).
    { unfold adj. rewrite at2_build. destruct (Nat.ltb_spec i n); [|lia]. destruct (Nat.ltb_spec j n); [|lia]. cbn [andb]. rewrite HC by assumption. reflexivity. }
    assert (E2 : link row adj' i j = Some (if in_dec Nat.eq_dec i (nb j) then f i j else z)).
    { unfold link, adj'. destruct row; try exact E1. unfold transpose. rewrite at2_build. destruct (Nat.ltb_spec i n); [|lia]. destruct (Nat.ltb_spec j n); [|lia]. cbn [andb].
      unfold at2 in E1. destruct (nth_error adj i) as [r|] eqn:Er; [|discriminate]. rewrite (nth_error_nth _ _ [] Er). rewrite (nth_error_nth _ _ z E1). reflexivity. }
    unfold G. destruct sl; try exact E2. unfold link in *. destruct row; rewrite at2_fill; rewrite ?(Nat.eqb_sym j i); destruct (Nat.eqb i j); rewrite E2; reflexivity. }
  assert (COL : forall (A : Type) (z : A) (f : nat -> nat -> A) i j, (i < n)%nat -> (j < n)%nat ->
    nth i (nth j (map (fun j => put_along (repeat z n) (nb j) (map (fun i => f i j) (nb j))) (seq 0 n)) []) z = if in_dec Nat.eq_dec i (nb j) then f i j else z).
  { intros A z f i j Hi Hj. erewrite (nth_error_nth (map _ (seq 0 n))) by (rewrite nth_error_map', seq_nth_error; destruct (Nat.ltb_spec j n); [reflexivity|lia]). cbn [Nat.add].
    pose proof (put_along_nth (fun i => f i j) (nb j) (repeat z n) i) as Q. rewrite repeat_length in Q. specialize (Q (proj1 (proj2 (proj2 (NB j Hj))))).
    destruct (in_dec Nat.eq_dec i (nb j)); [apply nth_error_nth; exact Q|]. apply nth_error_nth. rewrite Q. rewrite nth_error_repeat by exact Hi. reflexivity. }
  cbv zeta in FIN. pose proof (FIN ext (Fin 0) _ _ (COL ext (Fin 0) (fun i j => nth i (column M j) NaN))) as FW.
  pose proof (FIN bool false _ _ (COL bool false (fun _ _ => true))) as FU. destruct w.
  - assert (E : exists G, out = Ok (Floats G) /\ shape n n G /\ forall i j, (i < n)%nat -> (j < n)%nat ->
      link row G i j = Some (match sl with FFalse => if Nat.eqb i j then Fin 0 else if in_dec Nat.eq_dec i (nb j) then nth i (column M j) NaN else Fin 0 | _ => if in_dec Nat.eq_dec i (nb j) then nth i (column M j) NaN else Fin 0 end)).
    { destruct dt; try (destruct HD as [HD|HD]; exfalso; apply HD; reflexivity); (eexists; split; [exact H|]; exact FW). }
    destruct E as (G & -> & SG & EG). exists G. split; [reflexivity|]. split; [exact SG|]. intros i j Hi Hj. rewrite (EG i j Hi Hj), (column_entry n M j i HM Hj). destruct sl; reflexivity.
  - eexists. split; [exact H|]. destruct FU as (SG & EG). split; [exact SG|]. intros i j Hi Hj. etransitivity; [exact (EG i j Hi Hj)|]. destruct sl; reflexivity.
  - eexists. split; [exact H|]. destruct FU as (SG & EG). split; [exact SG|]. intros i j Hi Hj. etransitivity; [exact (EG i j Hi Hj)|]. destruct sl; reflexivity.
Qed.

(** With self loops: exactly k entries per particle, nobody nearer omitted; weighted entries hold the affinity. *)
Theorem C83_self_loops : forall n M k self_loop row dt out, shape n n M -> self_loop <> FFalse -> (k < n)%nat ->
  knn_adj M (Z.of_nat k) self_loop FFalse row dt out ->
  exists nb G, (forall j, (j < n)%nat -> nearest n k (fun i => entry M i j) (nb j)) /\ out = Ok (Bools G) /\ shape n n G /\
    forall i j, (i < n)%nat -> (j < n)%nat -> exists b, link row G i j = Some b /\ (b = true <-> In i (nb j)).
Proof.
  intros n M k sl row dt out HM HS Hk H. apply (knn_raw n) in H; [|exact HM|left; discriminate|destruct sl; try contradiction; lia].
  destruct H as (nb & HN & G & -> & SG & HG). exists nb, G. split; [|split; [reflexivity|split; [exact SG|]]].
  - intros j Hj. specialize (HN j Hj). destruct sl; try contradiction; rewrite Nat2Z.id in HN; exact HN.
  - intros i j Hi Hj. rewrite (HG i j Hi Hj). eexists. split; [reflexivity|]. destruct sl; try contradiction; destruct (in_dec Nat.eq_dec i (nb j)); split; intros; auto; discriminate.
Qed.
Theorem C83_self_loops_weighted : forall n M k self_loop row dt out, shape n n M -> self_loop <> FFalse -> (k < n)%nat -> dt <> DOther ->
  knn_adj M (Z.of_nat k) self_loop FTrue row dt out ->
  exists nb G, (forall j, (j < n)%nat -> nearest n k (fun i => entry M i j) (nb j)) /\ out = Ok (Floats G) /\ shape n n G /\
    forall i j, (i < n)%nat -> (j < n)%nat -> (In i (nb j) -> link row G i j = at2 M i j) /\ (~ In i (nb j) -> link row G i j = Some (Fin 0)).
Proof.
  intros n M k sl row dt out HM HS Hk HD H. apply (knn_raw n) in H; [|exact HM|right; exact HD|destruct sl; try contradiction; lia].
  destruct H as (nb & HN & G & -> & SG & HG). exists nb, G. split; [|split; [reflexivity|split; [exact SG|]]].
  - intros j Hj. specialize (HN j Hj). destruct sl; try contradiction; rewrite Nat2Z.id in HN; exact HN.
  - intros i j Hi Hj. rewrite (HG i j Hi Hj). destruct (at2_shape n n M i j HM Hi Hj) as (x & Hx). unfold entry. rewrite Hx. destruct sl; try contradiction; destruct (in_dec Nat.eq_dec i (nb j)); split; intros; auto; contradiction.
Qed.

(** Every particle is strictly nearest to itself. *)
Definition self_nearest (n : nat) (M : list (list ext)) : Prop :=
  forall i j, (i < n)%nat -> (j < n)%nat -> i <> j -> ~ sort_le (entry M i j) (entry M j j).
Lemma drop_self n k M j near : (j < n)%nat -> nearest n (S k) (fun i => entry M i j) near -> self_nearest n M ->
  nearest_others n k j (fun i => entry M i j) (remove Nat.eq_dec j near) /\ In j near.
Proof.
  intros Hj (ND & L & RG & MIN) HS. assert (IJ : In j near).
  { destruct (in_dec Nat.eq_dec j near) as [|N]; [assumption|]. exfalso. destruct near as [|i near]; [discriminate|].
    destruct (Nat.eq_dec i j) as [->|NE]; [apply N; left; reflexivity|]. apply (HS i j (RG i (or_introl eq_refl)) Hj NE). apply MIN; [left; reflexivity|exact Hj|exact N]. }
  split; [|exact IJ]. split; [|split; [|split]].
  - clear - ND. induction ND as [|x l Hx ND IH]; [constructor|]. cbn. destruct (Nat.eq_dec j x); [exact IH|]. constructor; [|exact IH]. intros F. apply in_remove in F as (F & _). contradiction.
  - clear - ND L IJ. revert k L IJ. induction ND as [|x l Hx ND IH]; intros k L IJ; [destruct IJ|]. cbn [remove length] in *. destruct (Nat.eq_dec j x) as [->|NE].
    + rewrite notin_remove by exact Hx. lia.
    + destruct IJ as [->|IJ]; [contradiction|]. cbn. destruct k as [|k]; [destruct l; [destruct IJ|cbn in L; lia]|]. f_equal. apply IH; [lia|exact IJ].
  - intros i Hi. apply in_remove in Hi as (Hi & N). split; [apply RG, Hi|exact N].
  - intros i i' Hi Hi' N Hn. apply in_remove in Hi as (Hi & N2). apply MIN; [exact Hi|exact Hi'|]. intros F. apply Hn. apply in_in_remove; assumption.
Qed.
Theorem C83_others : forall n M k row dt out, shape n n M -> self_nearest n M -> (S k < n)%nat ->
  knn_adj M (Z.of_nat k) FFalse FFalse row dt out ->
  exists nb G, (forall j, (j < n)%nat -> nearest_others n k j (fun i => entry M i j) (nb j)) /\ out = Ok (Bools G) /\ shape n n G /\
    forall i j, (i < n)%nat -> (j < n)%nat -> exists b, link row G i j = Some b /\ (b = true <-> In i (nb j)).
Proof.
  intros n M k row dt out HM HS Hk H. apply (knn_raw n) in H; [|exact HM|left; discriminate|lia].
  destruct H as (nb & HN & G & -> & SG & HG). exists (fun j => remove Nat.eq_dec j (nb j)), G. replace (Z.to_nat (Z.of_nat k + 1)) with (S k) in HN by lia.
  split; [intros j Hj; apply drop_self; auto|]. split; [reflexivity|]. split; [exact SG|].
  intros i j Hi Hj. rewrite (HG i j Hi Hj). eexists. split; [reflexivity|]. destruct (Nat.eqb_spec i j) as [->|NE].
  - split; [discriminate|]. intros F. apply in_remove in F as (_ & F). contradiction.
  - destruct (in_dec Nat.eq_dec i (nb j)) as [I|N]; split; intros F; auto; [apply in_in_remove; assumption|discriminate|exfalso; apply in_remove in F as (F & _); contradiction].
Qed.
Theorem C83_others_weighted : forall n M k row dt out, shape n n M -> self_nearest n M -> (S k < n)%nat -> dt <> DOther ->
  knn_adj M (Z.of_nat k) FFalse FTrue row dt out ->
  exists nb G, (forall j, (j < n)%nat -> nearest_others n k j (fun i => entry M i j) (nb j)) /\ out = Ok (Floats G) /\ shape n n G /\
    forall i j, (i < n)%nat -> (j < n)%nat -> (In i (nb j) -> link row G i j = at2 M i j) /\ (~ In i (nb j) -> link row G i j = Some (Fin 0)).
Proof.
  intros n M k row dt out HM HS Hk HD H. apply (knn_raw n) in H; [|exact HM|right; exact HD|lia].
  destruct H as (nb & HN & G & -> & SG & HG). exists (fun j => remove Nat.eq_dec j (nb j)), G. replace (Z.to_nat (Z.of_nat k + 1)) with (S k) in HN by lia.
  split; [intros j Hj; apply drop_self; auto|]. split; [reflexivity|]. split; [exact SG|].
  intros i j Hi Hj. rewrite (HG i j Hi Hj). destruct (at2_shape n n M i j HM Hi Hj) as (x & Hx). unfold entry. rewrite Hx. destruct (Nat.eqb_spec i j) as [->|NE].
  - split; [|reflexivity]. intros F. apply in_remove in F as (_ & F). contradiction.
  - destruct (in_dec Nat.eq_dec i (nb j)) as [I|N]; split; intros F; auto; [exfalso; apply F; apply in_in_remove; assumption|exfalso; apply in_remove in F as (F & _); contradiction].
Qed.

(** An admissible partial sort always exists. *)
Lemma sort_le_total a b : sort_le a b \/ sort_le b a.
Proof. destruct a, b; cbn; try tauto. lra. Qed.
Lemma sort_le_dec a b : {sort_le a b} + {~ sort_le a b}.
Proof. destruct a, b; cbn; try (left; exact I); try (right; tauto). apply Rle_dec. Qed.
Lemma sorted_exists (v : nat -> ext) l : exists p, Permutation p l /\ StronglySorted (fun a b => sort_le (v a) (v b)) p.
Proof.
  induction l as [|x l (p & HP & HS)]; [exists []; split; constructor|].
  assert (I : exists q, Permutation q (x :: p) /\ StronglySorted (fun a b => sort_le (v a) (v b)) q).
  { clear HP. induction HS as [|y p HS (q & HQ & SQ) HY]; [exists [x]; split; [reflexivity|repeat constructor]|].
    destruct (sort_le_dec (v x) (v y)) as [L|L].
    - exists (x :: y :: p). split; [reflexivity|]. constructor; [constructor; assumption|]. constructor; [exact L|]. eapply Forall_impl; [|exact HY]. intros z Hz. eapply sort_le_trans; [exact L|exact Hz].
    - exists (y :: q). split; [etransitivity; [apply perm_skip, HQ|apply perm_swap]|]. constructor; [exact SQ|]. apply Forall_forall. intros z Hz.
      apply (Permutation_in _ HQ) in Hz as [<-|Hz]; [destruct (sort_le_total (v y) (v x)); [assumption|contradiction]|]. rewrite Forall_forall in HY. apply HY, Hz. }
  destruct I as (q & HQ & SQ). exists q. split; [etransitivity; [exact HQ|apply perm_skip, HP]|exact SQ].
Qed.
Lemma sort_le_refl a : sort_le a a.
Proof. destruct (sort_le_total a a); assumption. Qed.
Lemma argpartition_exists col k : (k < length col)%nat -> exists p, argpartition col k p.
Proof.
  intros Hk. destruct (sorted_exists (fun i => nth i col NaN) (seq 0 (length col))) as (p & HP & HS). exists p. split; [exact HP|].
  assert (LP : length p = length col) by (rewrite (Permutation_length HP), seq_length; reflexivity).
  assert (G : forall (q : list nat) a b, StronglySorted (fun a b => sort_le (nth a col NaN) (nth b col NaN)) q -> (a <= b)%nat -> (b < length q)%nat -> sort_le (nth (nth a q O) col NaN) (nth (nth b q O) col NaN)).
  { clear. induction q as [|x q IH]; intros a b H L B; [cbn in B; lia|]. inversion H as [|? ? H1 H2]; subst. destruct a as [|a].
    - destruct b as [|b]; [apply sort_le_refl|]. cbn [nth]. rewrite Forall_forall in H2. apply H2. apply nth_In. cbn in B. lia.
    - destruct b as [|b]; [lia|]. cbn [nth]. apply IH; [exact H1|lia|cbn in B; lia]. }
  intros a Ha v. split; intros L; apply G; auto; lia.
Qed.
Theorem C83_runs : forall M k self_loop weighted row dt, exists out, knn_adj M k self_loop weighted row dt out.
Proof.
  intros M k sl w row dt. unfold knn_adj. set (kk := match sl with FFalse => (k + 1)%Z | _ => k end).
  destruct (norm_kth (length M) kk) as [kth|e] eqn:EK; [|eauto].
  assert (HK : (kth < length M)%nat).
  { unfold norm_kth in EK. destruct (Z.leb_spec (- Z.of_nat (length M)) kk); [|discriminate]. destruct (Z.ltb_spec kk (Z.of_nat (length M))); [|discriminate]. cbn in EK. injection EK as <-. destruct (Z.ltb_spec kk 0); lia. }
  assert (EX : forall m, exists knn : list (list nat), length knn = m /\ forall j p, nth_error knn j = Some p -> argpartition (column M j) kth p).
  { induction m as [|m (knn & L & H)]; [exists []; split; [reflexivity|intros [|j] p F; discriminate]|].
    destruct (argpartition_exists (column M m) kth) as (p & Hp); [unfold column; rewrite map_length; exact HK|]. exists (knn ++ [p]). split; [rewrite app_length; cbn; lia|].
    intros j q Hj. destruct (Nat.lt_ge_cases j m) as [Lt|Ge]; [rewrite nth_error_app1 in Hj by lia; apply H, Hj|]. rewrite nth_error_app2 in Hj by lia. rewrite L in Hj.
    destruct (j - m)%nat as [|[|x]] eqn:Ej; try discriminate. cbn in Hj. injection Hj as <-. replace j with m by lia. exact Hp. }
  destruct (EX (match M with [] => O | r :: _ => length r end)) as (knn & L & H).
  destruct w; [destruct dt| |]; eexists; exists knn; (split; [exact L|]; split; [exact H|]; reflexivity).
Qed.

(** ** C84 *)
(** As many neighbours as there are other particles: always ValueError. *)
Theorem C84_range_refuted : forall M weighted row dt out, knn_adj M (Z.of_nat (length M) - 1) FFalse weighted row dt out -> out = Err ValueError.
Proof. intros M w row dt out H. unfold knn_adj, norm_kth in H. replace (Z.of_nat (length M) - 1 + 1)%Z with (Z.of_nat (length M)) in H by lia. rewrite Z.ltb_irrefl, andb_false_r in H. exact H. Qed.
Theorem C84_range_partial : forall n M k self_loop row dt out, shape n n M -> knn_adj M (Z.of_nat k) self_loop FFalse row dt out ->
  (out = Err ValueError <-> (n <= match self_loop with FFalse => S k | _ => k end)%nat) /\ ((exists G, out = Ok (Bools G)) \/ out = Err ValueError).
Proof.
  intros n M k sl row dt out HM H. destruct (Nat.le_gt_cases n (match sl with FFalse => S k | _ => k end)) as [L|L].
  - assert (E : out = Err ValueError).
    { unfold knn_adj, norm_kth in H. destruct HM as (LM & _). rewrite LM in H. destruct (Z.ltb_spec (match sl with FFalse => (Z.of_nat k + 1)%Z | _ => Z.of_nat k end) (Z.of_nat n)); [destruct sl; lia|]. rewrite andb_false_r in H. exact H. }
    split; [split; auto|right; exact E].
  - apply (knn_raw n) in H; [|exact HM|left; discriminate|destruct sl; lia]. destruct H as (nb & _ & G & -> & _). split; [split; [discriminate|intros F; lia]|left; eauto].
Qed.
(** Three particles on a line at 0, 1 and 3: the neighbours of the last particle are not in its row. *)
Definition line : list (list ext) := [[Fin 0; Fin 1; Fin 3]; [Fin 1; Fin 0; Fin 2]; [Fin 3; Fin 2; Fin 0]].
Lemma line_shape : shape 3 3 line.
Proof. split; [reflexivity|repeat constructor]. Qed.
Lemma line_self : self_nearest 3 line.
Proof. intros i j Hi Hj N. destruct i as [|[|[|]]], j as [|[|[|]]]; try lia; cbn; lra. Qed.
Theorem C84_row_orientation_refuted : (forall i j, entry line i j = entry line j i) /\ self_nearest 3 line /\
  exists G, (forall dt out, knn_adj line 1 FFalse FFalse FTrue dt out -> out = Ok (Bools G)) /\ (forall j, (j < 3)%nat -> at2 G 2 j = Some false) /\ at2 G 1 2 = Some true.
Proof.
  split; [|split; [exact line_self|]].
  { intros [|[|[|i]]] [|[|[|j]]]; try reflexivity; unfold entry, at2; cbn; try destruct i; try destruct j; reflexivity. }
  exists [[false; true; false]; [true; false; true]; [false; false; false]]. split; [|split].
  - intros dt out H. apply (C83_others 3 line 1) in H; [|exact line_shape|exact line_self|lia]. destruct H as (nb & G & HN & -> & (LG & FG) & HG). do 2 f_equal.
    assert (NB : forall j, (j < 3)%nat -> nb j = [match j with O => 1 | _ => match j with 1 => 0 | _ => 1 end end]%nat).
    { intros j Hj. destruct (HN j Hj) as (ND & L & RG & MIN). destruct (nb j) as [|a [|]] eqn:Ea; try discriminate. f_equal.
      destruct (RG a (or_introl eq_refl)) as (R1 & R2). destruct j as [|[|[|j]]]; [| | |lia]; destruct a as [|[|[|a]]]; try lia; try reflexivity.
      - exfalso. specialize (MIN 2%nat 1%nat (or_introl eq_refl) ltac:(lia) ltac:(lia) ltac:(cbn; lia)). cbn in MIN. lra.
      - exfalso. specialize (MIN 2%nat 0%nat (or_introl eq_refl) ltac:(lia) ltac:(lia) ltac:(cbn; lia)). cbn in MIN. lra.
      - exfalso. specialize (MIN 0%nat 1%nat (or_introl eq_refl) ltac:(lia) ltac:(lia) ltac:(cbn; lia)). cbn in MIN. lra. }
    assert (E : forall i j, (i < 3)%nat -> (j < 3)%nat -> at2 G i j = Some (if in_dec Nat.eq_dec i (nb j) then true else false)).
    { intros i j Hi Hj. destruct (HG i j Hi Hj) as (b & Hb & HB). cbn [link] in Hb. rewrite Hb. f_equal. destruct (in_dec Nat.eq_dec i (nb j)) as [I|N]; [apply HB, I|]. destruct b; [exfalso; apply N, HB; reflexivity|reflexivity]. }
    destruct G as [|r0 [|r1 [|r2 [|]]]]; try discriminate. inversion FG as [|? ? F0 FG1]; inversion FG1 as [|? ? F1 FG2]; inversion FG2 as [|? ? F2 _]; subst.
    destruct r0 as [|a0 [|a1 [|a2 [|]]]]; try discriminate. destruct r1 as [|b0 [|b1 [|b2 [|]]]]; try discriminate. destruct r2 as [|c0 [|c1 [|c2 [|]]]]; try discriminate.
    pose proof (E 0%nat 0%nat ltac:(lia) ltac:(lia)) as E00. pose proof (E 0%nat 1%nat ltac:(lia) ltac:(lia)) as E01. pose proof (E 0%nat 2%nat ltac:(lia) ltac:(lia)) as E02.
    pose proof (E 1%nat 0%nat ltac:(lia) ltac:(lia)) as E10. pose proof (E 1%nat 1%nat ltac:(lia) ltac:(lia)) as E11. pose proof (E 1%nat 2%nat ltac:(lia) ltac:(lia)) as E12.
    pose proof (E 2%nat 0%nat ltac:(lia) ltac:(lia)) as E20. pose proof (E 2%nat 1%nat ltac:(lia) ltac:(lia)) as E21. pose proof (E 2%nat 2%nat ltac:(lia) ltac:(lia)) as E22.
    rewrite NB in E00, E01, E02, E10, E11, E12, E20, E21, E22 by lia. cbn in *. congruence.
  - intros [|[|[|j]]] Hj; try reflexivity. lia.
  - reflexivity.
Qed.
(** Rows hold the neighbours exactly with row=False. *)
Theorem C84_rows_partial : forall n M k dt out, shape n n M -> self_nearest n M -> (S k < n)%nat ->
  knn_adj M (Z.of_nat k) FFalse FFalse FFalse dt out ->
  exists nb G, (forall j, (j < n)%nat -> nearest_others n k j (fun i => entry M i j) (nb j)) /\ out = Ok (Bools G) /\
    forall i j, (i < n)%nat -> (j < n)%nat -> exists b, at2 G j i = Some b /\ (b = true <-> In i (nb j)).
Proof. intros n M k dt out HM HS Hk H. destruct (C83_others n M k FFalse dt out HM HS Hk H) as (nb & G & H1 & H2 & _ & H3). exists nb, G. repeat (split; [assumption|]). exact H3. Qed.

(** ** C100: flags are compared by identity *)
Theorem C100_flags_refuted :
  (forall A (one zero : A) num, fc_adj one zero num FOther = fc_adj one zero num FTrue) /\
  (forall M cut mode weighted, cut_adj M cut mode FOther weighted = cut_adj M cut mode FTrue weighted) /\
  (forall M cut mode self_loop, cut_adj M cut mode self_loop FOther = Err ValueError) /\
  (forall M k weighted row dt out, knn_adj M k FOther weighted row dt out <-> knn_adj M k FTrue weighted row dt out) /\
  (forall M k self_loop row dt out, knn_adj M k self_loop FOther row dt out <-> knn_adj M k self_loop FFalse row dt out) /\
  (forall M k self_loop weighted dt out, knn_adj M k self_loop weighted FOther dt out <-> knn_adj M k self_loop weighted FTrue dt out).
Proof.
  split; [reflexivity|]. split; [reflexivity|]. split; [|split; [reflexivity|split; reflexivity]].
  intros. unfold cut_adj. destruct (String.eqb mode "max"); [reflexivity|]. destruct (String.eqb mode "min"); reflexivity.
Qed.
(** The singletons work: no self loops with False, all with True. *)
Theorem C100_singletons_partial : forall n M cut mode B B' i, shape n n M -> (i < n)%nat ->
  cut_adj M cut mode FFalse FFalse = Ok (Bools B) -> cut_adj M cut mode FTrue FFalse = Ok (Bools B') -> at2 B i i = Some false /\ at2 B' i i = Some true.
Proof.
  intros n M cut mode B B' i HM Hi H H'.
  assert (Hm : mode = "max"%string \/ mode = "min"%string).
  { unfold cut_adj in H. destruct (String.eqb_spec mode "max"); [left; assumption|]. destruct (String.eqb_spec mode "min"); [right; assumption|discriminate]. }
  destruct (C81_unweighted n M cut mode FFalse HM Hm) as (B1 & E1 & _ & _ & D1). destruct (C81_unweighted n M cut mode FTrue HM Hm) as (B2 & E2 & _ & _ & D2).
  rewrite H in E1. rewrite H' in E2. injection E1 as <-. injection E2 as <-. split; [apply D1, Hi|apply D2, Hi].
Qed.

(** ** C101: coincident particles *)
Definition coincident : list (list ext) := repeat (repeat (Fin 0) 3) 3.
Theorem C101_coincident_refuted : exists G, knn_adj coincident 1 FFalse FFalse FTrue DNone (Ok (Bools G)) /\ at2 G 0 2 = Some true /\ at2 G 1 2 = Some true.
Proof.
  exists [[false; true; true]; [true; false; true]; [false; false; false]]. split; [|split; reflexivity].
  unfold knn_adj. cbn [coincident repeat length norm_kth]. change (norm_kth 3 (1 + 1)) with (@Ok nat 2%nat). cbv iota beta.
  exists [[0; 1; 2]; [0; 1; 2]; [0; 1; 2]]%nat. split; [reflexivity|]. split; [|reflexivity].
  intros j p Hp. assert (p = [0; 1; 2]%nat) as -> by (destruct j as [|[|[|j]]]; cbn in Hp; [congruence|congruence|congruence|destruct j; discriminate]).
  destruct j as [|[|[|j]]]; [| | |destruct j; discriminate]; (split; [apply Permutation_refl|]); intros a Ha v; assert (E : forall x, (x < 3)%nat -> v x = Fin 0) by (intros [|[|[|x]]] Hx; try reflexivity; lia);
    cbn in Ha; rewrite !E by lia; split; intros _; cbn; lra.
Qed.
(** In general k or k+1 others are linked: those of the k+1 nearest positions that are not the particle itself. *)
Theorem C101_others_partial : forall n M k row dt out, shape n n M -> (S k < n)%nat ->
  knn_adj M (Z.of_nat k) FFalse FFalse row dt out ->
  exists nb G, (forall j, (j < n)%nat -> nearest n (S k) (fun i => entry M i j) (nb j)) /\ out = Ok (Bools G) /\
    forall i j, (i < n)%nat -> (j < n)%nat -> exists b, link row G i j = Some b /\ (b = true <-> i <> j /\ In i (nb j)).
Proof.
  intros n M k row dt out HM Hk H. apply (knn_raw n) in H; [|exact HM|left; discriminate|lia].
  destruct H as (nb & HN & G & -> & SG & HG). exists nb, G. replace (Z.to_nat (Z.of_nat k + 1)) with (S k) in HN by lia.
  split; [exact HN|]. split; [reflexivity|]. intros i j Hi Hj. rewrite (HG i j Hi Hj). eexists. split; [reflexivity|]. destruct (Nat.eqb_spec i j) as [->|NE].
  - split; [discriminate|]. intros (F & _). contradiction.
  - destruct (in_dec Nat.eq_dec i (nb j)) as [I|N]; split; intros F; auto; [discriminate|destruct F; contradiction].
Qed.

(** C84: a negative count wraps: it counts from the number of particles downwards. *)
Theorem C84_negative_count_refuted : forall M k self_loop weighted row dt out,
  let k' := match self_loop with FFalse => (k + 1)%Z | _ => k end in
  (- Z.of_nat (length M) <= k' < 0)%Z ->
  (knn_adj M k self_loop weighted row dt out <-> knn_adj M (k + Z.of_nat (length M)) self_loop weighted row dt out).
Proof.
  intros M k sl w row dt out k' Hk. unfold knn_adj. cbv zeta.
  set (n := length M) in *. set (k2 := match sl with FFalse => (k + Z.of_nat n + 1)%Z | _ => (k + Z.of_nat n)%Z end). fold k'.
  assert (E2 : k2 = (k' + Z.of_nat n)%Z) by (unfold k2, k'; destruct sl; lia). rewrite E2.
  assert (N1 : norm_kth n k' = Ok (Z.to_nat (k' + Z.of_nat n))) by (unfold norm_kth; destruct (Z.leb_spec (- Z.of_nat n) k'); [|lia]; destruct (Z.ltb_spec k' (Z.of_nat n)); [|lia]; destruct (Z.ltb_spec k' 0); [reflexivity|lia]).
  assert (N2 : norm_kth n (k' + Z.of_nat n) = Ok (Z.to_nat (k' + Z.of_nat n))) by (unfold norm_kth; destruct (Z.leb_spec (- Z.of_nat n) (k' + Z.of_nat n)); [|lia]; destruct (Z.ltb_spec (k' + Z.of_nat n) (Z.of_nat n)); [|lia]; destruct (Z.ltb_spec (k' + Z.of_nat n) 0); [lia|reflexivity]).
  rewrite N1, N2.
  assert (EN : forall knn, (forall j p, nth_error knn j = Some p -> argpartition (column M j) (Z.to_nat (k' + Z.of_nat n)) p) -> map (head k') knn = map (@head nat (k' + Z.of_nat n)) knn).
  { intros knn HK. apply map_ext_in. intros p Hp. apply In_nth_error in Hp as (j & Hj). specialize (HK j p Hj). destruct HK as (P & _). apply Permutation.Permutation_length in P. rewrite seq_length in P. unfold column in P. rewrite map_length in P. fold n in P.
    unfold head. rewrite P. destruct (Z.ltb_spec k' 0); [|lia]. destruct (Z.ltb_spec (k' + Z.of_nat n) 0); [lia|reflexivity]. }
  split; intros (knn & L & HK & H); exists knn; (split; [exact L|]); (split; [exact HK|]); specialize (EN knn HK).
  - rewrite <- EN. exact H.
  - rewrite EN. exact H.
Qed.
Theorem C83_dtype_error : forall M k self_loop row out,
  let k' := match self_loop with FFalse => (k + 1)%Z | _ => k end in (0 <= k' < Z.of_nat (length M))%Z ->
  knn_adj M k self_loop FTrue row DOther out -> out = Err ValueError.
Proof.
  intros M k sl row out k' Hk H. unfold knn_adj in H. cbv zeta in H. fold k' in H.
  assert (N1 : norm_kth (length M) k' = Ok (Z.to_nat k')) by (unfold norm_kth; destruct (Z.leb_spec (- Z.of_nat (length M)) k'); [|lia]; destruct (Z.ltb_spec k' (Z.of_nat (length M))); [|lia]; destruct (Z.ltb_spec k' 0); [lia|reflexivity]).
  rewrite N1 in H. destruct H as (knn & _ & _ & H). exact H.
Qed.
Example C84_negative_demo : (- Z.of_nat (length coincident) <= -2 < 0)%Z.
Proof. cbn. lia. Qed.

(** ** C85 *)
Lemma emul2_one x : emul2 (Fin 1) x = x.
Proof. destruct x; cbn; try (destruct (Req_EM_T 1 0); [lra|reflexivity]); try reflexivity. f_equal. ring. Qed.
Lemma phd_at same partons hadrons e out i j : (same = true -> hadrons = partons) -> parton_hadron_distance same partons hadrons e out ->
  at2 out i j = match nth_error partons i, nth_error hadrons j with Some p, Some q => Some (emul2 (np_power (pt p) e) (delta_entry eta p q)) | _, _ => None end.
Proof.
  intros HS (D & HD & ->). apply call_result in HD; [|exact HS]. subst D. cbn [rap_of]. unfold at2. rewrite map2_nth, nth_error_map'. unfold delta_R. rewrite nth_error_map'.
  destruct (nth_error partons i) as [p|]; [|reflexivity]. cbn [option_map]. rewrite !nth_error_map'. destruct (nth_error hadrons j); reflexivity.
Qed.
(** Entry (i, j) is pT_i^e times the delta_R entry. *)
Theorem C85_entries : forall same partons hadrons e out D i j p d, (same = true -> hadrons = partons) ->
  parton_hadron_distance same partons hadrons e out -> delta_R_call same true partons hadrons D ->
  nth_error partons i = Some p -> 0 < pt_sq p -> at2 D i j = Some d ->
  match d with
  | Fin x => at2 out i j = Some (Fin (Rpower (sqrt (pt_sq p)) e * x))
  | _ => d = PInf /\ at2 out i j = Some PInf
  end.
Proof.
  intros same partons hadrons e out D i j p d HS HO HD Hp PP Hd. rewrite (phd_at _ _ _ _ _ _ _ HS HO). apply call_result in HD; [|exact HS]. subst D. cbn [rap_of] in Hd.
  rewrite delta_R_at, Hp in Hd. rewrite Hp. destruct (nth_error hadrons j) as [q|]; [|discriminate]. injection Hd as Hd. rewrite Hd.
  pose proof (entry_nonneg eta p q) as NN. rewrite Hd in NN.
  assert (PT : 0 < pt p) by (unfold pt; apply sqrt_lt_R0; exact PP). unfold np_power. destruct (Rlt_dec 0 (pt p)) as [_|]; [|contradiction].
  assert (RP : 0 < Rpower (pt p) e) by (unfold Rpower; apply exp_pos).
  destruct d as [x| | |]; try contradiction; cbn [emul2 emul].
  - do 2 f_equal. rewrite Rmult_comm. reflexivity.
  - split; [reflexivity|]. destruct (Req_EM_T (Rpower (pt p) e) 0); [lra|reflexivity].
Qed.
Theorem C85_exponent_zero : forall same partons hadrons out D, (same = true -> hadrons = partons) ->
  parton_hadron_distance same partons hadrons 0 out -> delta_R_call same true partons hadrons D -> out = D.
Proof.
  intros same partons hadrons out D HS (D' & HD' & ->) HD. apply call_result in HD; [|exact HS]. apply call_result in HD'; [|exact HS]. subst D D'. unfold delta_R.
  assert (W : forall p, np_power (pt p) 0 = Fin 1).
  { intros p. unfold np_power. destruct (Rlt_dec 0 (pt p)); [rewrite Rpower_O by assumption; reflexivity|]. destruct (Req_EM_T 0 0); [reflexivity|contradiction]. }
  induction partons as [|p l IH]; [reflexivity|]. cbn [map map2]. rewrite W. f_equal.
  - rewrite (map_ext _ (fun x => x)) by (intros; apply emul2_one). apply map_id.
  - clear - W. induction l as [|p l IH]; [reflexivity|]. cbn [map map2]. rewrite W, IH. f_equal. rewrite (map_ext _ (fun x => x)) by (intros; apply emul2_one). apply map_id.
Qed.
(** All momenta of [l] multiplied by [c]. *)
Definition mscale (c : R) (p : mom) : mom := Mom (c * px p) (c * py p) (c * pz p) (c * en p).
Lemma atan2_scale c y x : 0 < c -> atan2 (c * y) (c * x) = atan2 y x.
Proof.
  intros Hc. assert (SG : forall z, (0 < c * z <-> 0 < z) /\ (c * z < 0 <-> z < 0)).
  { intros z. split; split; intros H.
    - destruct (Rlt_dec 0 z); [assumption|]. exfalso. assert (c * z <= c * 0) by (apply Rmult_le_compat_l; lra). lra.
    - apply Rmult_lt_0_compat; assumption.
    - destruct (Rlt_dec z 0); [assumption|]. exfalso. assert (c * 0 <= c * z) by (apply Rmult_le_compat_l; lra). lra.
    - assert (c * z < c * 0) by (apply Rmult_lt_compat_l; assumption). lra. }
  destruct (SG x) as (X1 & X2). destruct (SG y) as (Y1 & Y2). unfold atan2.
  assert (Q : x <> 0 -> c * y / (c * x) = y / x) by (intros; field; split; lra).
  destruct (Rlt_dec 0 x) as [P|P]; [destruct (Rlt_dec 0 (c * x)); [rewrite Q by lra; reflexivity|exfalso; tauto]|]. destruct (Rlt_dec 0 (c * x)); [exfalso; tauto|].
  destruct (Rlt_dec x 0) as [N|N]; [destruct (Rlt_dec (c * x) 0); [|exfalso; tauto]|destruct (Rlt_dec (c * x) 0); [exfalso; tauto|]].
  - rewrite Q by lra. destruct (Rle_dec 0 y) as [L|L], (Rle_dec 0 (c * y)) as [L'|L']; try reflexivity; exfalso.
    + apply L'. destruct (Rle_lt_or_eq_dec 0 y L) as [L2|<-]; [apply Rlt_le; tauto|lra].
    + apply Rnot_le_lt in L. apply Y2 in L. lra.
  - destruct (Rlt_dec 0 y), (Rlt_dec 0 (c * y)); try (exfalso; tauto); try reflexivity. destruct (Rlt_dec y 0), (Rlt_dec (c * y) 0); try (exfalso; tauto); reflexivity.
Qed.
Lemma delta_phi_scale c p q : 0 < c -> delta_phi (mscale c p) q = delta_phi p q.
Proof.
  intros Hc. unfold delta_phi, mscale. cbn [px py]. rewrite <- (atan2_scale c (py p * px q - px p * py q)) by exact Hc. f_equal; ring.
Qed.
Lemma pt_scale c p : 0 < c -> pt (mscale c p) = c * pt p.
Proof.
  intros Hc. unfold pt, mscale. cbn [px py]. replace (c * px p * (c * px p) + c * py p * (c * py p)) with (c * c * (px p * px p + py p * py p)) by ring.
  rewrite sqrt_mult by (try apply sumsq_pos; apply Rmult_le_pos; lra). rewrite sqrt_square by lra. reflexivity.
Qed.
Lemma eta_scale c p : 0 < c -> eta (mscale c p) = eta p.
Proof.
  intros Hc. assert (S : spatial_mag (mscale c p) = c * spatial_mag p).
  { unfold spatial_mag. rewrite pt_scale by exact Hc. unfold mscale. cbn [pz].
    replace (c * pz p * (c * pz p) + c * pt p * (c * pt p)) with (c * c * (pz p * pz p + pt p * pt p)) by ring.
    rewrite sqrt_mult by (try apply sumsq_pos; apply Rmult_le_pos; lra). rewrite sqrt_square by lra. reflexivity. }
  unfold eta. rewrite S. destruct (Req_EM_T (spatial_mag p) 0) as [Z|Z], (Req_EM_T (c * spatial_mag p) 0) as [Z'|Z']; try reflexivity.
  - rewrite Z in Z'. lra.
  - apply Rmult_integral in Z' as [Z'|Z']; [lra|contradiction].
  - unfold mscale. cbn [pz]. replace (c * pz p / (c * spatial_mag p)) with (pz p / spatial_mag p) by (field; split; [exact Z|lra]). reflexivity.
Qed.
(** Scaling all partons leaves the ranking of the partons by distance from each hadron unchanged. *)
Theorem C85_scaling : forall c partons hadrons e out out' i i' j x x' y y', 0 < c ->
  (forall p, In p partons -> 0 < pt_sq p) ->
  parton_hadron_distance false partons hadrons e out -> parton_hadron_distance false (map (mscale c) partons) hadrons e out' ->
  at2 out i j = Some x -> at2 out i' j = Some x' -> at2 out' i j = Some y -> at2 out' i' j = Some y' ->
  (sort_le x x' <-> sort_le y y').
Proof.
  intros c partons hadrons e out out' i i' j x x' y y' Hc HP HO HO' Hx Hx' Hy Hy'.
  assert (K : forall a u v, at2 out a j = Some u -> at2 out' a j = Some v -> (exists r, u = Fin r /\ v = Fin (Rpower c e * r)) \/ (u = PInf /\ v = PInf)).
  { intros a u v Hu Hv. rewrite (phd_at false _ _ _ _ _ _ ltac:(discriminate) HO) in Hu. rewrite (phd_at false _ _ _ _ _ _ ltac:(discriminate) HO'), nth_error_map' in Hv.
    destruct (nth_error partons a) as [p|] eqn:Ep; [|discriminate]. cbn [option_map] in Hv. destruct (nth_error hadrons j) as [q|]; [|discriminate]. injection Hu as <-. injection Hv as <-.
    pose proof (HP p (nth_error_In _ _ Ep)) as P1. assert (PT : 0 < pt p) by (unfold pt; apply sqrt_lt_R0; exact P1).
    unfold delta_entry. rewrite eta_scale, delta_phi_scale by assumption. fold (delta_entry eta p q).
    pose proof (entry_nonneg eta p q) as NN. rewrite pt_scale by exact Hc. unfold np_power.
    destruct (Rlt_dec 0 (pt p)) as [_|]; [|contradiction]. destruct (Rlt_dec 0 (c * pt p)) as [_|N]; [|exfalso; apply N, Rmult_lt_0_compat; assumption].
    destruct (delta_entry eta p q) as [d| | |]; try contradiction; cbn [emul2 emul].
    - left. eexists. split; [reflexivity|]. f_equal. rewrite <- Rpower_mult_distr by assumption. ring.
    - right. assert (0 < Rpower (pt p) e) by apply exp_pos. assert (0 < Rpower (c * pt p) e) by apply exp_pos. destruct (Req_EM_T (Rpower (pt p) e) 0); [lra|]. destruct (Req_EM_T (Rpower (c * pt p) e) 0); [lra|]. split; reflexivity. }
  assert (RC : 0 < Rpower c e) by apply exp_pos.
  destruct (K i x y Hx Hy) as [(r & -> & ->)|(-> & ->)], (K i' x' y' Hx' Hy') as [(s & -> & ->)|(-> & ->)]; cbn; try tauto.
  split; intros L; [apply Rmult_le_compat_l; lra|]. apply (Rmult_le_reg_l (Rpower c e)); assumption.
Qed.
Example C85_demo : (forall p, In p [Mom 3 4 0 9; Mom 1 1 5 9] -> 0 < pt_sq p) /\ exists out out', parton_hadron_distance false [Mom 3 4 0 9; Mom 1 1 5 9] [Mom 1 0 2 9; Mom 0 1 1 9] (-1) out /\
  parton_hadron_distance false (map (mscale 2) [Mom 3 4 0 9; Mom 1 1 5 9]) [Mom 1 0 2 9; Mom 0 1 1 9] (-1) out'.
Proof.
  split. { intros p [<-|[<-|[]]]; unfold pt_sq; cbn [px py]; lra. }
  destruct (call_exists false true [Mom 3 4 0 9; Mom 1 1 5 9] [Mom 1 0 2 9; Mom 0 1 1 9]) as (D & HD).
  destruct (call_exists false true (map (mscale 2) [Mom 3 4 0 9; Mom 1 1 5 9]) [Mom 1 0 2 9; Mom 0 1 1 9]) as (D' & HD').
  do 2 eexists. split; [exists D; split; [exact HD|reflexivity] | exists D'; split; [exact HD'|reflexivity]].
Qed.

(** The affinity of an array with itself is the distance matrix to a copy: symmetric, zero on the diagonal. *)
Theorem C65_delta_R_aff : forall l M, delta_R_aff l M ->
  delta_R_call false true l l M /\ (forall i j, at2 M i j = at2 M j i) /\ (forall i, (i < length l)%nat -> at2 M i i = Some (Fin 0)).
Proof.
  intros l M H. unfold delta_R_aff in H. apply call_result in H; [|reflexivity]. cbn [rap_of] in H. split; [|split].
  - destruct (call_exists false true l l) as (M' & H'). pose proof H' as E. apply call_result in E; [|discriminate]. cbn [rap_of] in E. congruence.
  - intros i j. subst M. rewrite !delta_R_at. destruct (nth_error l i), (nth_error l j); try reflexivity. rewrite delta_entry_sym. reflexivity.
  - intros i Hi. subst M. rewrite delta_R_at. destruct (nth_error l i) eqn:E; [|apply nth_error_None in E; lia]. rewrite delta_entry_self. reflexivity.
Qed.

Print Assumptions C81_unweighted.
Print Assumptions C81_weighted.
Print Assumptions C81_errors.
Print Assumptions C82_complete.
Print Assumptions C82_negative.
Print Assumptions C83_self_loops.
Print Assumptions C83_self_loops_weighted.
Print Assumptions C83_others.
Print Assumptions C83_others_weighted.
Print Assumptions C83_runs.
Print Assumptions C84_range_refuted.
Print Assumptions C84_range_partial.
Print Assumptions C84_row_orientation_refuted.
Print Assumptions C84_rows_partial.
Print Assumptions C100_flags_refuted.
Print Assumptions C100_singletons_partial.
Print Assumptions C101_coincident_refuted.
Print Assumptions C101_others_partial.
Print Assumptions C85_entries.
Print Assumptions C85_exponent_zero.
Print Assumptions C85_scaling.
Print Assumptions C65_delta_R_aff.

Print Assumptions C84_negative_count_refuted.
Print Assumptions C83_dtype_error.
