(** C152 - C155: which objects share memory, for every program. *)
From Verif Require Import Prelude Keys SpecMemory Memory MemoryProofs.

(** No statement of one program, at any point of any interleaving, is seen by the other: the first program starts with the
    single variable [c], the second with the variables [env]. *)
Definition isolated {T} (s : st T) (c : nat) (env : list nat) : Prop :=
  forall ops s1 ea eb, run2 (s, [c], env) ops = (s1, ea, eb) -> forall o,
    (forall b path, In b eb -> read (fst (step s1 ea o)) b path = read s1 b path) /\
    (forall a path, In a ea -> read (fst (step s1 eb o)) a path = read s1 a path).

Section PM.
Context {T : Type}.
Notation st := (st T).
Implicit Types s : st.

Lemma valid_owned s : valid s -> owned s (fun _ => false) (fun _ => false).
Proof.
  intros V o ob E. specialize (V o ob E). destruct ob as [r b off n|c b off n|kids|p a]; cbn; (split; [intros b' Eb | intros k Hk]); try discriminate; try contradiction.
  - injection Eb as <-. destruct V as (l & El & _). split; [apply nth_error_Some; congruence | reflexivity].
  - injection Eb as <-. destruct V as (l & El & _). split; [apply nth_error_Some; congruence | reflexivity].
  - destruct V as (_ & V). apply In_nth_error in Hk as (i & Hi). destruct (V i k Hi) as (c & _ & A). unfold is_arr in A. split; [apply nth_error_Some; intros Z; rewrite Z in A; discriminate | reflexivity].
  - destruct V as (V1 & V2). unfold is_set, is_arr in *. destruct Hk as [<-|[<-|[]]]; (split; [apply nth_error_Some; intros Z | reflexivity]); [rewrite Z in V1 | rewrite Z in V2]; discriminate.
Qed.
Lemma safe_isolated s env r s' c : valid s -> (forall o, In o env -> o < length (objs s)) ->
  safe true s (fun _ => false) (fun _ => false) r -> r = (s', Ok c) -> isolated s' c env.
Proof.
  intros V HE (co & cb & X & N) -> ops s1 ea eb R o. cbn in X, N.
  apply separated_quiet. rewrite <- R. apply run2_separated. exists co, cb. split; [apply (x_owned _ _ _ _ _ _ _ X)|]. split.
  - intros x [<-|[]]. apply N. reflexivity.
  - apply (names_ext _ _ _ _ _ _ _ _ _ X). intros x Hx. split; [apply HE, Hx | reflexivity].
Qed.

(** Memory only grows. *)
Definition grows s s' : Prop := (exists lb, bufs s' = bufs s ++ lb) /\ (exists lo, objs s' = objs s ++ lo).
Lemma grows_refl s : grows s s.
Proof. split; exists []; rewrite app_nil_r; reflexivity. Qed.
Lemma grows_trans s1 s2 s3 : grows s1 s2 -> grows s2 s3 -> grows s1 s3.
Proof. intros ((lb & A) & (lo & B)) ((lb' & C) & (lo' & D)). split; [exists (lb ++ lb') | exists (lo ++ lo')]; rewrite ?C, ?D, ?A, ?B, app_assoc; reflexivity. Qed.
Lemma grows_obj s s' o ob : grows s s' -> nth_error (objs s) o = Some ob -> nth_error (objs s') o = Some ob.
Proof. intros (_ & lo & E) H. rewrite E, nth_error_app1; [exact H | apply nth_error_Some; congruence]. Qed.
Lemma grows_buf s s' b l : grows s s' -> nth_error (bufs s) b = Some l -> nth_error (bufs s') b = Some l.
Proof. intros ((lb & E) & _) H. rewrite E, nth_error_app1; [exact H | apply nth_error_Some; congruence]. Qed.
Lemma grows_lb s s' : grows s s' -> length (bufs s) <= length (bufs s').
Proof. intros ((lb & E) & _). rewrite E, app_length. lia. Qed.
Lemma grows_window s s' b off n l : grows s s' -> nth_error (bufs s) b = Some l -> window s' b off n = window s b off n.
Proof. intros G H. unfold window. rewrite (grows_buf _ _ _ _ G H), H. reflexivity. Qed.
Lemma grows_buf_new s l : grows s (fst (new_buf s l)).
Proof. split; cbn; [exists [l]; reflexivity | exists []; rewrite app_nil_r; reflexivity]. Qed.
Lemma grows_obj_new s o : grows s (fst (new_obj s o)).
Proof. split; cbn; [exists []; rewrite app_nil_r; reflexivity | exists [o]; reflexivity]. Qed.
Lemma nth_error_last {A} (l : list A) x : nth_error (l ++ [x]) (length l) = Some x.
Proof. rewrite nth_error_app2, Nat.sub_diag by lia. reflexivity. Qed.

(** [o'] in [s'] is an instance of [c] holding [l], on memory made since [s]. *)
Definition newly s s' (o' : nat) (c : cls) (l : list T) : Prop :=
  exists b, nth_error (objs s') o' = Some (OArr c b 0 (length l)) /\ length (bufs s) <= b /\ nth_error (bufs s') b = Some l.
Lemma fresh_newly s c l s' o : fresh s c l = (s', o) -> grows s s' /\ newly s s' o c l.
Proof.
  unfold fresh. intros E. injection E as <- <-. split.
  - split; cbn; [exists [l] | exists [OArr c (length (bufs s)) 0 (length l)]]; reflexivity.
  - exists (length (bufs s)). cbn. split; [apply nth_error_last|]. split; [lia | apply nth_error_last].
Qed.
Lemma newly_read s s' o c l : newly s s' o c l -> read s' o [] = Some l.
Proof. intros (b & E & _ & F). cbn. rewrite E. unfold window. rewrite F. f_equal. cbn. apply firstn_all. Qed.
Lemma newly_grows s s' s'' o c l : grows s' s'' -> newly s s' o c l -> newly s s'' o c l.
Proof. intros G (b & E & L & F). exists b. split; [eapply grows_obj; eauto|]. split; [exact L | eapply grows_buf; eauto]. Qed.
Lemma newly_older s0 s s' o c l : grows s0 s -> newly s s' o c l -> newly s0 s' o c l.
Proof. intros G (b & E & L & F). exists b. apply grows_lb in G. split; [exact E|]. split; [lia | exact F]. Qed.


Definition bufs_ok s : Prop := forall o ob b, nth_error (objs s) o = Some ob -> buf_of ob = Some b -> exists l, nth_error (bufs s) b = Some l.
Lemma bufs_ok_valid s : valid s -> bufs_ok s.
Proof. intros V o ob b E Eb. specialize (V o ob E). destruct ob; cbn in Eb; try discriminate; injection Eb as <-; destruct V as (l & Hl & _); exists l; exact Hl. Qed.
Lemma bufs_ok_newbuf s l : bufs_ok s -> bufs_ok (fst (new_buf s l)).
Proof. intros B o ob b E Eb. destruct (B o ob b E Eb) as (l' & H). exists l'. eapply grows_buf; [apply grows_buf_new | exact H]. Qed.
Lemma bufs_ok_newobj s o : bufs_ok s -> (forall b, buf_of o = Some b -> exists l, nth_error (bufs s) b = Some l) -> bufs_ok (fst (new_obj s o)).
Proof. intros B H o' ob b E Eb. cbn in *. apply nth_error_snoc in E as [(_ & E)|(_ & ->)]; [apply (B o' ob b E Eb) | apply H, Eb]. Qed.
Lemma bufs_ok_fresh s c l : bufs_ok s -> bufs_ok (fst (fresh s c l)).
Proof.
  intros B. unfold fresh. pose proof (bufs_ok_newbuf s l B) as B1. assert (E : nth_error (bufs (fst (new_buf s l))) (snd (new_buf s l)) = Some l) by apply nth_error_last.
  destruct (new_buf s l) as (s1, b). cbn in B1, E. apply bufs_ok_newobj; [exact B1|]. cbn. intros b' F. injection F as <-. exists l. exact E.
Qed.

(** What a method does to one array object [x]: the new object [y] is described by [Q]. *)
Section Meth.
Variable f : st -> cls -> nat -> nat -> nat -> hres (T:=T) nat.
Variable Q : st -> nat -> st -> nat -> Prop.
Hypothesis Qgrows : forall s x s' s'' y, grows s' s'' -> Q s x s' y -> Q s x s'' y.
Hypothesis Qolder : forall s0 s x s' y, grows s0 s -> bufs_ok s0 -> x < length (objs s0) -> Q s x s' y -> Q s0 x s' y.
Hypothesis fQ : forall s x c b off n s' y, bufs_ok s -> nth_error (objs s) x = Some (OArr c b off n) -> f s c b off n = (s', Ok y) -> grows s s' /\ bufs_ok s' /\ Q s x s' y.

Definition comp_ok s (c : cls) (x : nat) s' (y : nat) : Prop :=
  (nonempty1 s x = true -> Q s x s' y) /\ (nonempty1 s x = false -> newly s s' y c []).
Lemma comp_ok_grows s c x s' s'' y : grows s' s'' -> comp_ok s c x s' y -> comp_ok s c x s'' y.
Proof. intros G (A & B). split; intros H; [eapply Qgrows; eauto | eapply newly_grows; eauto]. Qed.
Lemma nonempty1_grows s s' x : grows s s' -> x < length (objs s) -> nonempty1 s' x = nonempty1 s x.
Proof. intros G L. unfold nonempty1. destruct (nth_error (objs s) x) as [ob|] eqn:E; [rewrite (grows_obj _ _ _ _ G E); reflexivity | apply nth_error_None in E; lia]. Qed.
Lemma comp_ok_older s0 s c x s' y : grows s0 s -> bufs_ok s0 -> x < length (objs s0) -> comp_ok s c x s' y -> comp_ok s0 c x s' y.
Proof. intros G B L (A & C). unfold comp_ok. rewrite <- (nonempty1_grows _ _ _ G L). split; intros H; [eapply Qolder; eauto | eapply newly_older; eauto]. Qed.
Lemma component_ok s c x s' y : bufs_ok s -> component f s c x = (s', Ok y) -> grows s s' /\ bufs_ok s' /\ comp_ok s c x s' y.
Proof.
  intros B. unfold component. destruct (nonempty1 s x) eqn:E.
  - unfold on_arr. destruct (nth_error (objs s) x) as [ob|] eqn:Eo; [|discriminate]. destruct ob as [|c' b off n| |]; try discriminate. intros F.
    destruct (fQ s x c' b off n s' y B Eo F) as (G & B' & HQ). split; [exact G|]. split; [exact B'|]. split; [auto | congruence].
  - pose proof (bufs_ok_fresh s c [] B) as B'. destruct (fresh s c []) as (s1, o1) eqn:F. intros H. injection H as <- <-. destruct (fresh_newly _ _ _ _ _ F). split; [auto|]. split; [exact B'|]. split; [congruence | auto].
Qed.
Lemma components_ok cs : forall s kids s' os, bufs_ok s -> (forall x, In x kids -> x < length (objs s)) -> length kids = length cs -> components f s cs kids = (s', Ok os) ->
  grows s s' /\ bufs_ok s' /\ length os = length cs /\
  forall i c x y, nth_error cs i = Some c -> nth_error kids i = Some x -> nth_error os i = Some y -> comp_ok s c x s' y.
Proof.
  induction cs as [|c cs IH]; intros s kids s' os B L HL.
  - destruct kids; [|discriminate]. cbn. intros E. injection E as <- <-. split; [apply grows_refl|]. split; [exact B|]. split; [reflexivity|]. intros [|i]; discriminate.
  - destruct kids as [|x kids]; [discriminate|]. cbn. destruct (component f s c x) as (s1, [o|e]) eqn:E1; [|discriminate]. destruct (component_ok _ _ _ _ _ B E1) as (G1 & B1 & C1).
    assert (L1 : forall x, In x kids -> x < length (objs s)) by (intros z Hz; apply L; right; exact Hz).
    destruct (components f s1 cs kids) as (s2, [os2|e]) eqn:E2; [|discriminate]. intros E. injection E as <- <-. cbn in HL. injection HL as HL.
    assert (L2 : forall z, In z kids -> z < length (objs s1)) by (intros z Hz; specialize (L1 z Hz); destruct G1 as (_ & lo & El); rewrite El, app_length; lia).
    destruct (IH s1 kids s2 os2 B1 L2 HL E2) as (G2 & B2 & LO & C2). split; [eapply grows_trans; eauto|]. split; [exact B2|]. split; [cbn; congruence|].
    intros [|i] c0 x0 y0 Hc Hx Hy; cbn in Hc, Hx, Hy.
    + injection Hc as <-. injection Hx as <-. injection Hy as <-. eapply comp_ok_grows; eauto.
    + eapply comp_ok_older; [exact G1|exact B| |eapply C2; eauto]. apply L1. eapply nth_error_In; eauto.
Qed.
Lemma on_set_ok s kids s' o : bufs_ok s -> (forall x, In x kids -> x < length (objs s)) -> length kids = 6 -> on_set f s kids = (s', Ok o) ->
  grows s s' /\ bufs_ok s' /\ exists os, nth_error (objs s') o = Some (OSet os) /\ length os = 6 /\
  forall i c x y, nth_error set_classes i = Some c -> nth_error kids i = Some x -> nth_error os i = Some y -> comp_ok s c x s' y.
Proof.
  intros B L HL. unfold on_set. destruct (components f s set_classes kids) as (s1, [os|e]) eqn:E; [|discriminate]. intros H. injection H as <- <-.
  destruct (components_ok set_classes s kids s1 os B L HL E) as (G & B1 & LO & C). pose proof (grows_obj_new s1 (OSet os)) as G2. split; [eapply grows_trans; eauto|].
  split; [apply bufs_ok_newobj; [exact B1 | discriminate]|]. exists os. cbn. split; [apply nth_error_last|]. split; [exact LO|]. intros i c x y Hc Hx Hy. eapply comp_ok_grows; [exact G2 | eapply C; eauto].
Qed.
End Meth.

(** x[k] on one array object. *)
Definition shareb (c : cls) (k : key) (ps : list nat) : bool :=
  match k with KSlice _ _ _ => contiguous ps | KInt _ => two_dim c | _ => false end.
Definition Sel (k : key) s (x : nat) s' (y : nat) : Prop := exists c b off n ps rows b' off',
  nth_error (objs s) x = Some (OArr c b off n) /\ resolve n k = Ok ps /\ mapM (get (window s b off n)) ps = Ok rows /\
  nth_error (objs s') y = Some (OArr c b' off' (length ps)) /\ (exists l', nth_error (bufs s') b' = Some l') /\
  ((shareb c k ps = true /\ b' = b /\ off' = off + hd 0 ps) \/
   (shareb c k ps = false /\ length (bufs s) <= b' /\ off' = 0 /\ nth_error (bufs s') b' = Some rows)).
Lemma Sel_grows k s x s' s'' y : grows s' s'' -> Sel k s x s' y -> Sel k s x s'' y.
Proof.
  intros G (c & b & off & n & ps & rows & b' & off' & H1 & H2 & H3 & H4 & (l' & H5) & H6). exists c, b, off, n, ps, rows, b', off'.
  repeat split; auto; [eapply grows_obj; eauto | exists l'; eapply grows_buf; eauto |]. destruct H6 as [H6|(A & B & C & D)]; [left; exact H6 | right; repeat split; auto; eapply grows_buf; eauto].
Qed.
Lemma Sel_older k s0 s x s' y : grows s0 s -> bufs_ok s0 -> x < length (objs s0) -> Sel k s x s' y -> Sel k s0 x s' y.
Proof.
  intros G B L (c & b & off & n & ps & rows & b' & off' & H1 & H2 & H3 & H4 & H5 & H6).
  destruct (nth_error (objs s0) x) as [ob|] eqn:E; [|apply nth_error_None in E; lia]. rewrite (grows_obj _ _ _ _ G E) in H1. injection H1 as ->.
  destruct (B x _ b E eq_refl) as (l & Hl). rewrite (grows_window _ _ b off n l G Hl) in H3. pose proof (grows_lb _ _ G).
  exists c, b, off, n, ps, rows, b', off'. repeat split; auto. destruct H6 as [H6|(A1 & A2 & A3)]; [left; exact H6 | right; repeat split; try tauto; lia].
Qed.
Lemma select_Sel k s x c b off n s' y : bufs_ok s -> nth_error (objs s) x = Some (OArr c b off n) -> select s c b off n k = (s', Ok y) ->
  grows s s' /\ bufs_ok s' /\ Sel k s x s' y.
Proof.
  intros B E. unfold select. destruct (resolve n k) as [ps|e] eqn:R; [|discriminate]. destruct (mapM _ ps) as [rows|e] eqn:M; [|discriminate]. destruct (B x _ b E eq_refl) as (l0 & Hl0).
  assert (LR : length rows = length ps) by (apply mapM_length in M; exact M).
  assert (V : (let (s1, o) := new_obj s (OArr c b (off + hd 0 ps) (length ps)) in (s1, Ok o)) = (s', Ok y) -> shareb c k ps = true -> grows s s' /\ bufs_ok s' /\ Sel k s x s' y).
  { intros F S. injection F as <- <-. split; [apply (grows_obj_new s (OArr c b (off + hd 0 ps) (length ps)))|]. split; [apply (bufs_ok_newobj s); [exact B|]; cbn; intros b1 F; injection F as <-; eauto|].
    exists c, b, off, n, ps, rows, b, (off + hd 0 ps). cbn. rewrite nth_error_last. repeat split; auto; eauto. }
  assert (C : (let (s1, o) := fresh s c rows in (s1, Ok o)) = (s', Ok y) -> shareb c k ps = false -> grows s s' /\ bufs_ok s' /\ Sel k s x s' y).
  { intros F S. pose proof (bufs_ok_fresh s c rows B) as B'. destruct (fresh s c rows) as (s1, o1) eqn:FE. injection F as <- <-. destruct (fresh_newly _ _ _ _ _ FE) as (G & b' & N1 & N2 & N3). rewrite LR in N1.
    split; [exact G|]. split; [exact B'|]. exists c, b, off, n, ps, rows, b', 0. repeat split; auto; eauto. }
  destruct k; auto; [destruct (two_dim c) eqn:D | destruct (contiguous ps) eqn:D]; auto.
Qed.
Definition Cp s (x : nat) s' (y : nat) : Prop := exists c b off n, nth_error (objs s) x = Some (OArr c b off n) /\ newly s s' y c (window s b off n).
Lemma Cp_grows s x s' s'' y : grows s' s'' -> Cp s x s' y -> Cp s x s'' y.
Proof. intros G (c & b & off & n & H & N). exists c, b, off, n. split; [exact H | eapply newly_grows; eauto]. Qed.
Lemma Cp_older s0 s x s' y : grows s0 s -> bufs_ok s0 -> x < length (objs s0) -> Cp s x s' y -> Cp s0 x s' y.
Proof.
  intros G B L (c & b & off & n & H & N). destruct (nth_error (objs s0) x) as [ob|] eqn:E; [|apply nth_error_None in E; lia]. rewrite (grows_obj _ _ _ _ G E) in H. injection H as ->.
  destruct (B x _ b E eq_refl) as (l & Hl). rewrite (grows_window _ _ b off n l G Hl) in N. exists c, b, off, n. split; [exact E | eapply newly_older; eauto].
Qed.
Lemma copy_Cp s x c b off n s' y : bufs_ok s -> nth_error (objs s) x = Some (OArr c b off n) -> copy_arr s c b off n = (s', Ok y) -> grows s s' /\ bufs_ok s' /\ Cp s x s' y.
Proof.
  intros B E. unfold copy_arr. pose proof (bufs_ok_fresh s c (window s b off n) B) as B'. destruct (fresh s c (window s b off n)) as (s1, o1) eqn:F. intros H. injection H as <- <-.
  destruct (fresh_newly _ _ _ _ _ F) as (G & N). split; [exact G|]. split; [exact B'|]. exists c, b, off, n. auto.
Qed.

(** ** Writes *)
Lemma modify_length f (l : list T) p : length (modify f l p) = length l.
Proof. unfold modify. destruct (nth_error l p); [apply set_nth_length|reflexivity]. Qed.
Lemma modify_nth f (l : list T) p q x : nth_error l q = Some x -> nth_error (modify f l p) q = Some (if Nat.eqb q p then f x else x).
Proof.
  intros H. unfold modify. destruct (nth_error l p) as [y|] eqn:E.
  - rewrite nth_set_nth. destruct (Nat.eqb_spec q p) as [->|N]; [rewrite H; congruence | exact H].
  - destruct (Nat.eqb_spec q p) as [->|N]; [congruence | exact H].
Qed.
Lemma modify_all_length f ps : forall l : list T, length (fold_left (modify f) ps l) = length l.
Proof. induction ps as [|p ps IH]; intros l; cbn; [reflexivity|]. rewrite IH. apply modify_length. Qed.
Lemma modify_all f ps : setter f -> forall (l : list T) q x, nth_error l q = Some x ->
  nth_error (fold_left (modify f) ps l) q = Some (if in_dec Nat.eq_dec q ps then f x else x).
Proof.
  intros Hf. induction ps as [|p ps IH]; intros l q x H; cbn [fold_left]; [exact H|].
  rewrite (IH _ q _ (modify_nth f l p q x H)). f_equal. cbn [in_dec].
  destruct (in_dec Nat.eq_dec q (p :: ps)) as [I|I]; destruct (in_dec Nat.eq_dec q ps) as [J|J]; destruct (Nat.eqb_spec q p) as [->|N]; auto.
  - destruct I; [congruence|contradiction].
  - destruct I. right. exact J.
  - destruct I. right. exact J.
  - destruct I. left. reflexivity.
Qed.

Lemma firstn_nth {A} n : forall (l : list A) q, nth_error (firstn n l) q = if q <? n then nth_error l q else None.
Proof.
  induction n as [|n IH]; intros l q; [destruct q; reflexivity|]. destruct l as [|y l]; [cbn [firstn]; destruct q; cbn; try reflexivity; match goal with |- context [if ?b then _ else _] => destruct b end; reflexivity|].
  destruct q as [|q]; [reflexivity|]. cbn [firstn nth_error]. rewrite IH. reflexivity.
Qed.
Lemma window_nth s b l off n p : nth_error (bufs s) b = Some l -> nth_error (window s b off n) p = if p <? n then nth_error l (off + p) else None.
Proof.
  intros H. unfold window. rewrite H, firstn_nth. destruct (p <? n); [|reflexivity]. clear. revert l. induction off as [|off IH]; intros l; [reflexivity|].
  destruct l as [|y l]; [destruct p; reflexivity|]. cbn. apply IH.
Qed.
Lemma window_length s b l off n : nth_error (bufs s) b = Some l -> off + n <= length l -> length (window s b off n) = n.
Proof. intros H L. unfold window. rewrite H, firstn_length, skipn_length. lia. Qed.
Lemma window_write s b l ps f off n : setter f -> nth_error (bufs s) b = Some l -> off + n <= length l ->
  length (window (write_buf s b ps f) b off n) = n /\
  forall p x, nth_error (window s b off n) p = Some x -> nth_error (window (write_buf s b ps f) b off n) p = Some (if in_dec Nat.eq_dec (off + p) ps then f x else x).
Proof.
  intros Hf H L. assert (E : nth_error (bufs (write_buf s b ps f)) b = Some (fold_left (modify f) ps l)).
  { unfold write_buf. rewrite H. cbn. rewrite nth_set_nth, Nat.eqb_refl, H. reflexivity. }
  split; [apply (window_length _ b (fold_left (modify f) ps l)); [exact E | rewrite modify_all_length; exact L]|].
  intros p x Hx. rewrite (window_nth _ _ _ _ _ _ E). rewrite (window_nth _ _ _ _ _ _ H) in Hx. destruct (p <? n); [|discriminate]. apply modify_all; auto.
Qed.
Lemma window_write_other s b b' ps f off n : b <> b' -> window (write_buf s b ps f) b' off n = window s b' off n.
Proof.
  intros N. unfold window, write_buf. destruct (nth_error (bufs s) b) as [l|]; [|reflexivity]. cbn. rewrite nth_set_nth.
  destruct (Nat.eqb_spec b' b); [congruence|reflexivity].
Qed.
Lemma write_objs s o k f : objs (fst (write s o k f)) = objs s.
Proof.
  unfold write. destruct (nth_error (objs s) o) as [ob|]; [|reflexivity].
  assert (G : forall b ps, objs (write_buf s b ps f) = objs s) by (intros b ps; unfold write_buf; destruct (nth_error (bufs s) b); reflexivity).
  destruct ob; try reflexivity; destruct (resolve n k); cbn; auto.
Qed.

(** ** Sharing *)
Lemma contiguous_spec ps : contiguous ps = true <-> consecutive ps.
Proof.
  unfold contiguous. destruct ps as [|p ps]; [split; [intros _ j q r H; destruct j; discriminate | reflexivity]|].
  destruct (list_eq_dec Nat.eq_dec (p :: ps) (seq p (length (p :: ps)))) as [E|E].
  - split; [intros _|reflexivity]. rewrite E. intros j q r Hq Hr. set (m := length (p :: ps)) in *. assert (G : forall m a i x, nth_error (seq a m) i = Some x -> x = a + i).
    { clear. induction m as [|m IH]; intros a i x; [destruct i; discriminate|]. destruct i as [|i]; cbn; [intros H; injection H as <-; lia|]. intros H. apply IH in H. lia. }
    apply G in Hq, Hr. lia.
  - split; [discriminate|]. intros C. exfalso. apply E. clear E. revert p C. induction ps as [|q ps IH]; intros p C; [reflexivity|].
    pose proof (C 0 p q eq_refl eq_refl) as ->. change (seq p (length (p :: S p :: ps))) with (p :: seq (S p) (length (S p :: ps))). f_equal. apply IH.
    intros j a b Ha Hb. apply (C (S j) a b Ha Hb).
Qed.
Lemma shareb_spec c k ps : shareb c k ps = true <-> shares c k ps.
Proof. destruct k; cbn; [split; [discriminate|contradiction] | tauto | split; [discriminate|contradiction] | apply contiguous_spec]. Qed.
(** Shared positions are neighbours. *)
Lemma shareb_nth c n k ps : resolve n k = Ok ps -> shareb c k ps = true -> forall j, j < length ps -> nth_error ps j = Some (hd 0 ps + j).
Proof.
  intros R S j Hj. assert (C : consecutive ps).
  { destruct k as [m|i|l|lo hi step]; try discriminate; cbn in S; [|apply contiguous_spec, S]. cbn in R. apply bind_ok in R as (p & _ & R). injection R as <-. intros [|j'] a b Ha Hb; [discriminate|destruct j'; discriminate]. }
  clear R S. induction j as [|j IH]; [destruct ps; [cbn in Hj; lia|]; cbn; rewrite Nat.add_0_r; reflexivity|].
  destruct (nth_error ps (S j)) as [q|] eqn:E; [|apply nth_error_None in E; lia]. rewrite (C j _ q (IH ltac:(lia)) E). f_equal. lia.
Qed.

(** What ties [y] = [x][k] to [x], for every write through either. *)
Definition tied s (x y : nat) (c : cls) (k : key) (old : list T) : Prop := exists ps rows,
  resolve (length old) k = Ok ps /\ read s x [] = Some old /\ read s y [] = Some rows /\ map Some rows = map (nth_error old) ps /\
  forall f k2 ps2, setter f ->
    (resolve (length rows) k2 = Ok ps2 -> exists new, read (fst (write s y k2 f)) x [] = Some new /\
       (shares c k ps -> updated f (map (fun j => nth j ps 0) ps2) old new) /\ (~ shares c k ps -> new = old)) /\
    (resolve (length old) k2 = Ok ps2 -> exists new, read (fst (write s x k2 f)) y [] = Some new /\ length new = length rows /\
       (shares c k ps -> forall j p v, nth_error ps j = Some p -> nth_error rows j = Some v -> nth_error new j = Some (if in_dec Nat.eq_dec p ps2 then f v else v)) /\
       (~ shares c k ps -> new = rows)).

Lemma Sel_tied k s x s' y c old : valid s -> grows s s' -> is_arr s x c = true -> read s x [] = Some old -> Sel k s x s' y -> tied s' x y c k old.
Proof.
  intros V G HC HR (c' & b & off & n & ps & rows & b' & off' & H1 & H2 & H3 & H4 & (l' & H5) & H6).
  assert (c' = c) as -> by (unfold is_arr in HC; rewrite H1 in HC; destruct c, c'; congruence).
  destruct (V x _ H1) as (l & Hl & Lb). cbn in HR. rewrite H1 in HR. injection HR as HR.
  assert (Ln : length old = n) by (rewrite <- HR; eapply window_length; eauto).
  assert (Hl' := grows_buf _ _ _ _ G Hl). assert (W := grows_window s s' b off n l G Hl). assert (O := grows_obj _ _ _ _ G H1).
  assert (LR : length rows = length ps) by (apply mapM_length in H3; exact H3). rewrite HR in H3. apply mapM_get_map in H3.
  assert (RX : read s' x [] = Some old) by (cbn; rewrite O, W, HR; reflexivity).
  assert (PL : forall j p, nth_error ps j = Some p -> p < n) by (intros j p Hj; eapply resolve_lt; [exact H2 | eapply nth_error_In; eauto]).
  assert (HN : forall j, j < length ps -> exists p v, nth_error ps j = Some p /\ nth_error rows j = Some v /\ nth_error old p = Some v).
  { intros j Hj. destruct (nth_error ps j) as [p|] eqn:E; [|apply nth_error_None in E; lia]. destruct (nth_error rows j) as [v|] eqn:F; [|apply nth_error_None in F; lia].
    exists p, v. repeat split. pose proof (f_equal (fun z => nth_error z j) H3) as Q. cbv beta in Q. rewrite !nth_error_map', E, F in Q. cbn in Q. congruence. }
  (* the rows seen through y *)
  assert (BY : off' + length ps <= length l' /\ window s' b' off' (length ps) = rows).
  { destruct H6 as [(S & -> & ->)|(S & LB & -> & E)].
    - assert (l' = l) as -> by congruence. assert (CN := shareb_nth c n k ps H2 S). split.
      + destruct (length ps) as [|m] eqn:Em.
        * destruct ps; [|discriminate]. cbn. lia.
        * specialize (CN m ltac:(lia)). apply PL in CN. lia.
      + apply nth_error_ext. intros j. rewrite (window_nth _ _ _ _ _ _ Hl'). destruct (Nat.ltb_spec j (length ps)) as [Hj|Hj]; [|symmetry; apply nth_error_None; lia].
        destruct (HN j Hj) as (p & v & Hp & Hv & Ho). rewrite Hv. rewrite (CN j Hj) in Hp. injection Hp as <-. rewrite <- HR, (window_nth _ _ _ _ _ _ Hl) in Ho.
        destruct (_ <? n); [|discriminate]. rewrite <- Ho. f_equal. lia.
    - assert (l' = rows) as -> by congruence. split; [cbn; lia|]. unfold window. rewrite E. cbn. rewrite <- LR. apply firstn_all. }
  destruct BY as (BY & WY).
  assert (RY : read s' y [] = Some rows) by (cbn; rewrite H4, WY; reflexivity).
  exists ps, rows. split; [rewrite Ln; exact H2|]. split; [exact RX|]. split; [exact RY|]. split; [exact H3|]. intros f k2 ps2 Hf. split.
  - intros R2. unfold read. rewrite write_objs, O. unfold write. rewrite H4. rewrite LR in R2. rewrite R2. cbn [fst].
    destruct H6 as [(S & -> & ->)|(S & LB & -> & E)].
    + assert (CN := shareb_nth c n k ps H2 S). destruct (window_write s' b l (map (Nat.add (off + hd 0 ps)) ps2) f off n Hf Hl' Lb) as (WL & WN).
      eexists. split; [reflexivity|]. split; [intros _ | intros NS; destruct NS; apply shareb_spec, S]. split; [rewrite WL; auto|].
      intros p v Hp. assert (Hp' : nth_error (window s' b off n) p = Some v) by (rewrite W, HR; exact Hp). rewrite (WN p v Hp').
      assert (I : In (off + p) (map (Nat.add (off + hd 0 ps)) ps2) <-> In p (map (fun j => nth j ps 0) ps2)).
      { rewrite !in_map_iff. split; intros (j & Ej & Ij).
        - exists j. split; [|exact Ij]. assert (Lj : j < length ps) by (eapply resolve_lt; eauto). apply CN in Lj. apply nth_error_nth with (d := 0) in Lj. rewrite Lj. lia.
        - exists j. split; [|exact Ij]. assert (Lj : j < length ps) by (eapply resolve_lt; eauto). apply CN in Lj. apply nth_error_nth with (d := 0) in Lj. rewrite Lj in Ej. lia. }
      destruct (in_dec Nat.eq_dec (off + p) (map (Nat.add (off + hd 0 ps)) ps2)) as [D|D]; split; intros A; try reflexivity; tauto.
    + assert (N : b' <> b) by (intros ->; apply (proj2 (Nat.nlt_ge b (length (bufs s)))) in LB; apply LB, nth_error_Some; congruence).
      rewrite (window_write_other _ _ _ _ _ _ _ N), W, HR. eexists. split; [reflexivity|]. split; [intros SH; apply shareb_spec in SH; congruence | reflexivity].
  - intros R2. unfold read. rewrite write_objs, H4. unfold write. rewrite O. rewrite Ln in R2. rewrite R2. cbn [fst].
    destruct H6 as [(S & -> & ->)|(S & LB & -> & E)].
    + assert (CN := shareb_nth c n k ps H2 S). assert (l' = l) as -> by congruence.
      destruct (window_write s' b l (map (Nat.add off) ps2) f (off + hd 0 ps) (length ps) Hf Hl' BY) as (WL & WN).
      eexists. split; [reflexivity|]. split; [lia|]. split; [intros _ | intros NS; destruct NS; apply shareb_spec, S].
      intros j p v Hp Hv. rewrite <- WY in Hv. rewrite (WN j v Hv). assert (Lj : j < length ps) by (apply nth_error_Some; congruence). rewrite (CN j Lj) in Hp. injection Hp as <-.
      assert (I : In (off + hd 0 ps + j) (map (Nat.add off) ps2) <-> In (hd 0 ps + j) ps2).
      { rewrite in_map_iff. split; [intros (q & Eq & Iq); replace (hd 0 ps + j) with q by lia; exact Iq | intros Iq; exists (hd 0 ps + j); split; [lia|exact Iq]]. }
      destruct (in_dec Nat.eq_dec (off + hd 0 ps + j) (map (Nat.add off) ps2)); destruct (in_dec Nat.eq_dec (hd 0 ps + j) ps2); try reflexivity; tauto.
    + assert (N : b <> b') by (intros ->; apply (proj2 (Nat.nlt_ge b' (length (bufs s)))) in LB; apply LB, nth_error_Some; congruence).
      rewrite (window_write_other _ _ _ _ _ _ _ N), WY. eexists. split; [reflexivity|]. split; [reflexivity|]. split; [intros SH; apply shareb_spec in SH; congruence | reflexivity].
Qed.

(** ** C152 *)
Lemma is_arr_cls s x c : is_arr s x c = true -> exists b off n, nth_error (objs s) x = Some (OArr c b off n).
Proof. unfold is_arr. destruct (nth_error (objs s) x) as [[| c' b off n| |]|]; try discriminate. intros H. exists b, off, n. destruct c, c'; congruence. Qed.
Lemma leaf_read s o c b off n path : nth_error (objs s) o = Some (OArr c b off n) -> read s o path = match path with [] => Some (window s b off n) | _ => None end.
Proof. intros E. destruct path as [|i path]; cbn; [rewrite E; reflexivity | unfold kid; rewrite E; reflexivity]. Qed.
Lemma newly_leaf s s' y c l path : newly s s' y c l -> read s' y path = match path with [] => Some l | _ => None end.
Proof. intros N. pose proof (newly_read _ _ _ _ _ N) as R. destruct N as (b & E & _). rewrite (leaf_read _ _ _ _ _ _ path E). destruct path; [|reflexivity]. cbn in R. rewrite E in R. exact R. Qed.
Lemma comp_read s c x s' y path : is_arr s x c = true -> comp_ok Cp s c x s' y -> read s' y path = read s x path.
Proof.
  intros A (H1 & H2). apply is_arr_cls in A as (b & off & n & E). rewrite (leaf_read _ _ _ _ _ _ path E). destruct (nonempty1 s x) eqn:N.
  - destruct (H1 eq_refl) as (c' & b' & off' & n' & E' & NW). rewrite E in E'. injection E' as <- <- <- <-. apply (newly_leaf _ _ _ _ _ path NW).
  - rewrite (newly_leaf _ _ _ _ _ path (H2 eq_refl)). destruct path; [|reflexivity]. f_equal. unfold nonempty1 in N. rewrite E in N. destruct (Nat.eqb_spec n 0) as [->|]; [|discriminate]. unfold window. destruct (nth_error (bufs s) b); reflexivity.
Qed.
Lemma kids_lt s kids : (forall i x, nth_error kids i = Some x -> exists c, nth_error set_classes i = Some c /\ is_arr s x c = true) -> forall x, In x kids -> x < length (objs s).
Proof. intros H x Hx. apply In_nth_error in Hx as (i & Hi). destruct (H i x Hi) as (c & _ & A). apply is_arr_cls in A as (b & off & n & E). apply nth_error_Some. congruence. Qed.
Lemma set_read s kids s' os : length kids = 6 -> (forall i x, nth_error kids i = Some x -> exists c, nth_error set_classes i = Some c /\ is_arr s x c = true) -> length os = 6 ->
  (forall i c x y, nth_error set_classes i = Some c -> nth_error kids i = Some x -> nth_error os i = Some y -> comp_ok Cp s c x s' y) ->
  forall i path, match nth_error os i with Some y => read s' y path | None => None end = match nth_error kids i with Some x => read s x path | None => None end.
Proof.
  intros L V LO C i path. destruct (nth_error kids i) as [x|] eqn:E; destruct (nth_error os i) as [y|] eqn:F; try reflexivity.
  - destruct (V i x E) as (c & Hc & A). apply (comp_read s c); [exact A|]. eapply C; eauto.
  - apply nth_error_None in F. assert (i < length kids) by (apply nth_error_Some; congruence). lia.
  - apply nth_error_None in E. assert (i < length os) by (apply nth_error_Some; congruence). lia.
Qed.
Lemma copy_read s x s' y : valid s -> copy s x = (s', Ok y) -> forall path, read s' y path = read s x path.
Proof.
  intros V. pose proof (bufs_ok_valid s V) as B. unfold copy, on_obj. destruct (nth_error (objs s) x) as [ob|] eqn:E; [|discriminate]. pose proof (V x _ E) as VX. destruct ob as [r b off n|c b off n|kids|p a]; [discriminate| | |].
  - intros H path. destruct (copy_Cp s x c b off n s' y B E H) as (_ & _ & c' & b' & off' & n' & E' & N). rewrite E in E'. injection E' as <- <- <- <-. rewrite (newly_leaf _ _ _ _ _ path N), (leaf_read _ _ _ _ _ _ path E). reflexivity.
  - intros H path. destruct VX as (L & VK). destruct (on_set_ok copy_arr Cp Cp_grows Cp_older copy_Cp s kids s' y B (kids_lt s kids VK) L H) as (G & _ & os & EO & LO & C).
    destruct path as [|i path]; cbn; [rewrite EO, E; reflexivity|]. unfold kid. rewrite EO, E. apply (set_read s kids s' os L VK LO C).
  - destruct VX as (VP & VA). unfold is_set in VP. destruct (nth_error (objs s) p) as [obp|] eqn:Ep; [|discriminate]. destruct obp as [| |kids|]; try discriminate. destruct (V p _ Ep) as (L & VK).
    destruct (on_set copy_arr s kids) as (s1, [p'|e]) eqn:E1; [|discriminate]. destruct (component copy_arr s1 Edges a) as (s2, [a'|e]) eqn:E2; [|discriminate].
    intros H path. injection H as <- <-.
    destruct (on_set_ok copy_arr Cp Cp_grows Cp_older copy_Cp s kids s1 p' B (kids_lt s kids VK) L E1) as (G1 & B1 & os & EO & LO & C).
    destruct (component_ok copy_arr Cp copy_Cp s1 Edges a s2 a' B1 E2) as (G2 & B2 & CA).
    assert (La : a < length (objs s)) by (apply is_arr_cls in VA as (b & off & n & Ea); apply nth_error_Some; congruence).
    apply (comp_ok_older Cp Cp_older s s1 Edges a s2 a' G1 B La) in CA.
    set (s3 := mkSt (bufs s2) (objs s2 ++ [OGraph p' a'])). assert (G3 : grows s2 s3) by (apply (grows_obj_new s2 (OGraph p' a'))).
    apply (comp_ok_grows Cp Cp_grows s Edges a s2 s3 a' G3) in CA.
    assert (C3 : forall i c x y, nth_error set_classes i = Some c -> nth_error kids i = Some x -> nth_error os i = Some y -> comp_ok Cp s c x s3 y).
    { intros i c x0 y0 Hc Hx Hy. eapply (comp_ok_grows Cp Cp_grows); [exact (grows_trans _ _ _ G2 G3) | eapply C; eauto]. }
    assert (EO3 : nth_error (objs s3) p' = Some (OSet os)) by (eapply grows_obj; [exact (grows_trans _ _ _ G2 G3) | exact EO]).
    assert (EG : nth_error (objs s3) (length (objs s2)) = Some (OGraph p' a')) by apply nth_error_last.
    destruct path as [|i path]; cbn [read]; [rewrite EG, E; reflexivity|]. assert (K1 : kid s3 (length (objs s2)) i = nth_error [p'; a'] i) by (unfold kid; rewrite EG; reflexivity). assert (K2 : kid s x i = nth_error [p; a] i) by (unfold kid; rewrite E; reflexivity).
    rewrite K1, K2. destruct i as [|[|i]]; [| |destruct i; reflexivity].
    + cbn [nth_error]. destruct path as [|j path]; cbn [read]; [rewrite EO3, Ep; reflexivity|]. unfold kid. rewrite EO3, Ep. apply (set_read s kids s3 os L VK LO C3).
    + cbn [nth_error]. apply (comp_read s Edges); assumption.
Qed.
End PM.

(** A copy of an array, a ParticleSet or a Graphicle reads the same as the original everywhere, and from then on neither the
    original nor any object that existed before can be changed through it, nor it through them, in any program. *)
Theorem C152_copies_isolated : forall (T : Type) (s : st T) x s' c env, valid s -> (forall o, In o env -> o < length (objs s)) ->
  copy s x = (s', Ok c) ->
  (forall path, read s' c path = read s x path) /\ isolated s' c env.
Proof.
  intros T s x s' c env V HE H. split; [apply (copy_read s x s' c V H)|].
  destruct (nth_error (objs s) x) as [ob|] eqn:E; [|unfold copy, on_obj in H; rewrite E in H; discriminate].
  apply (safe_isolated s env (copy s x) s' c V HE); [|exact H]. apply (on_obj_safe true false copy_arr (copy_method true false)); [apply valid_owned, V | apply nth_error_Some; congruence | reflexivity].
Qed.
Print Assumptions C152_copies_isolated.
(** The same for what a mask or a list of positions selects. *)
Theorem C152_selections_isolated : forall (T : Type) (s : st T) x k s' c env, valid s -> (forall o, In o env -> o < length (objs s)) ->
  match k with KMask _ | KList _ => True | _ => False end -> getitem s x k = (s', Ok c) -> isolated s' c env.
Proof.
  intros T s x k s' c env V HE HK H. destruct (nth_error (objs s) x) as [ob|] eqn:E; [|unfold getitem, on_obj in H; rewrite E in H; discriminate].
  apply (safe_isolated s env (getitem s x k) s' c V HE); [|exact H]. apply (on_obj_safe true false _ (select_copies true false k HK)); [apply valid_owned, V | apply nth_error_Some; congruence | reflexivity].
Qed.
Print Assumptions C152_selections_isolated.

(** A ParticleSet of three particles with codes and momenta (records are numbers here), a graph on it with two edges, and two ndarrays of the caller. *)
Definition demo : st nat :=
  mkSt [[1; 2; 3]; [10; 20; 30]; []; [7; 8]; [100; 200]; [300; 400]]
       [OArr Pdg 0 0 3; OArr Pmu 1 0 3; OArr Color 2 0 0; OArr Helicity 2 0 0; OArr Status 2 0 0; OArr Final 2 0 0; OSet [0; 1; 2; 3; 4; 5];
        OArr Edges 3 0 2; OGraph 6 7; ONd true 4 0 2; ONd false 5 0 2].
Ltac witness t := let r := eval vm_compute in t in match r with (?s, Ok ?c) => exists s, c end.
Lemma demo_valid : valid demo.
Proof.
  intros o ob H. apply nth_error_In in H. cbn [objs demo In] in H.
  repeat (destruct H as [<-|H]); try contradiction; try (eexists; split; [reflexivity | apply Nat.leb_le; reflexivity]).
  - split; [reflexivity|]. intros i x Hi. destruct i as [|[|[|[|[|[|i]]]]]]; [injection Hi as <-; eexists; split; reflexivity .. | destruct i; discriminate].
  - split; reflexivity.
Qed.
Example C152_demo : exists s' c, copy demo 8 = (s', Ok c) /\ read s' c [0; 1] = Some [10; 20; 30] /\ isolated s' c [6; 7; 8].
Proof.
  witness (copy demo 8). split; [vm_compute; reflexivity|]. split; [vm_compute; reflexivity|]. refine (proj2 (C152_copies_isolated nat demo 8 _ _ _ demo_valid _ _)); [|vm_compute; reflexivity].
  intros o [<-|[<-|[<-|[]]]]; apply Nat.ltb_lt; reflexivity.
Qed.

(** ** C153 *)
(** "Changing a selection does not change the array it came from": false for slices of neighbours. *)
Theorem C153_selection_refuted : exists (s : st nat) x k (s' : st nat) y, valid s /\ getitem s x k = (s', Ok y) /\
  read s' x [] = Some [1; 2; 3] /\ read (fst (write s' y (KInt 0) (fun _ => 9))) x [] = Some [1; 9; 3].
Proof.
  exists demo, 0, (KSlice (Some 1%Z) (Some 3%Z) None). witness (getitem demo 0 (KSlice (Some 1%Z) (Some 3%Z) None)).
  split; [exact demo_valid|]. repeat split; vm_compute; reflexivity.
Qed.
Print Assumptions C153_selection_refuted.
(** What is true: a selection reads the selected records; a write through it, or through the array, is seen through the other
    exactly when the selection [shares], at the corresponding records, and not at all otherwise. *)
Theorem C153_selection_partial : forall (T : Type) (s : st T) x c k old s' y, valid s -> is_arr s x c = true -> read s x [] = Some old ->
  getitem s x k = (s', Ok y) -> tied s' x y c k old.
Proof.
  intros T s x c k old s' y V A R H. pose proof A as A'. apply is_arr_cls in A' as (b & off & n & E). unfold getitem, on_obj in H. rewrite E in H.
  destruct (select_Sel k s x c b off n s' y (bufs_ok_valid s V) E H) as (G & _ & S). eapply Sel_tied; eauto.
Qed.
Print Assumptions C153_selection_partial.
(** Which selections share: all with step 1, none with another step unless they select at most one record. *)
Theorem C153_steps : forall c n lo hi step ps, resolve n (KSlice lo hi step) = Ok ps ->
  (match step with None => True | Some z => z = 1%Z end -> shares c (KSlice lo hi step) ps) /\
  (match step with None => False | Some z => z <> 1%Z end -> shares c (KSlice lo hi step) ps -> length ps <= 1).
Proof.
  intros c n lo hi step ps R. cbn in R. apply bind_ok in R as (zs & R & Q). injection Q as <-.
  assert (G : exists a m, zs = zrange a (match step with Some z => z | None => 1%Z end) m).
  { unfold slice_idx in R. set (z := match step with Some z => z | None => 1%Z end) in *. destruct (z =? 0)%Z; [discriminate|]. destruct (0 <? z)%Z; injection R as <-; eauto. }
  destruct G as (a & m & ->). assert (NN : forall j p, nth_error (zrange a (match step with Some z => z | None => 1%Z end) m) j = Some p -> (p = a + Z.of_nat j * match step with Some z => z | None => 1%Z end)%Z).
  { clear. set (z := match step with Some z => z | None => 1%Z end). clearbody z. revert a. induction m as [|m IH]; intros a j p H; [destruct j; discriminate|]. destruct j as [|j]; cbn in H; [injection H as <-; lia|]. apply IH in H. lia. }
  assert (P : forall z0, In z0 (zrange a (match step with Some z => z | None => 1%Z end) m) -> (0 <= z0)%Z) by (intros z0 Hz; eapply slice_idx_range in Hz; [|exact R]; lia).
  cbn [shares]. split.
  - intros S1 j p q Hp Hq. rewrite nth_error_map' in Hp, Hq. destruct (nth_error _ j) as [zp|] eqn:Ep in Hp; [|discriminate]. destruct (nth_error _ (S j)) as [zq|] eqn:Eq in Hq; [|discriminate]. cbn in Hp, Hq. injection Hp as <-. injection Hq as <-.
    pose proof (P zp (nth_error_In _ _ Ep)). pose proof (P zq (nth_error_In _ _ Eq)). apply NN in Ep, Eq. destruct step as [z|]; [subst z|]; lia.
  - intros S1 C. rewrite map_length. destruct m as [|[|m]]; [cbn; lia | cbn; lia|]. exfalso. destruct step as [z|]; [|contradiction].
    specialize (C 0 (Z.to_nat a) (Z.to_nat (a + z)) eq_refl eq_refl). pose proof (P a (or_introl eq_refl)). pose proof (P (a + z)%Z (or_intror (or_introl eq_refl))). lia.
Qed.
Print Assumptions C153_steps.
Example C153_demo : exists s' y, getitem demo 0 (KSlice None None (Some 2%Z)) = (s', Ok y) /\ read s' y [] = Some [1; 3] /\
  read (fst (write s' y (KInt 0) (fun _ => 9))) 0 [] = Some [1; 2; 3] /\ tied s' 0 y Pdg (KSlice None None (Some 2%Z)) [1; 2; 3].
Proof.
  witness (getitem demo 0 (KSlice None None (Some 2%Z))). split; [vm_compute; reflexivity|]. split; [vm_compute; reflexivity|]. split; [vm_compute; reflexivity|].
  apply (C153_selection_partial nat demo 0 Pdg _ _ _ _ demo_valid); vm_compute; reflexivity.
Qed.

(** ** C154 *)
(** "All components of a selected ParticleSet behave alike": in [p = particles[0]] the momentum is a window on the original's, the code is a copy. *)
Theorem C154_components_refuted : exists (s : st nat) x (s' : st nat) y, valid s /\ is_set s x = true /\ getitem s x (KInt 0) = (s', Ok y) /\
  exists mom code, kid s' y 1 = Some mom /\ kid s' y 0 = Some code /\
  read s' x [1] = Some [10; 20; 30] /\ read (fst (write s' mom (KInt 0) (fun _ => 99))) x [1] = Some [99; 20; 30] /\
  read s' x [0] = Some [1; 2; 3] /\ read (fst (write s' code (KInt 0) (fun _ => 99))) x [0] = Some [1; 2; 3].
Proof.
  exists demo, 6. witness (getitem demo 6 (KInt 0)). split; [exact demo_valid|]. split; [reflexivity|]. split; [vm_compute; reflexivity|].
  eexists. eexists. split; [vm_compute; reflexivity|]. split; [vm_compute; reflexivity|]. repeat split; vm_compute; reflexivity.
Qed.
Print Assumptions C154_components_refuted.
(** What is true: every component that is not empty is selected, and tied to the original's, as if it had been subscripted on its own. *)
Theorem C154_components_partial : forall (T : Type) (s : st T) x k s' y, valid s -> is_set s x = true -> getitem s x k = (s', Ok y) ->
  forall i c old, nth_error set_classes i = Some c -> read s x [i] = Some old -> old <> [] ->
  exists xi yi, kid s' x i = Some xi /\ kid s' y i = Some yi /\ tied s' xi yi c k old.
Proof.
  intros T s x k s' y V A H i c old Hc HR HO. unfold is_set in A. unfold getitem, on_obj in H. destruct (nth_error (objs s) x) as [[| |kids|]|] eqn:E; try discriminate. destruct (V x _ E) as (L & VK).
  destruct (on_set_ok _ (Sel k) (Sel_grows k) (Sel_older k) (select_Sel k) s kids s' y (bufs_ok_valid s V) (kids_lt s kids VK) L H) as (G & _ & os & EO & LO & C).
  cbn [read] in HR. unfold kid in HR. rewrite E in HR. destruct (nth_error kids i) as [xi|] eqn:Ex; [|discriminate].
  destruct (nth_error os i) as [yi|] eqn:Ey; [|apply nth_error_None in Ey; assert (i < length kids) by (apply nth_error_Some; congruence); lia].
  destruct (VK i xi Ex) as (c' & Hc' & AX). rewrite Hc in Hc'. injection Hc' as <-. exists xi, yi. unfold kid. rewrite (grows_obj _ _ _ _ G E), EO. split; [exact Ex|]. split; [exact Ey|].
  destruct (C i c xi yi Hc Ex Ey) as (CS & _). eapply Sel_tied; eauto. apply CS. apply is_arr_cls in AX as (b & off & n & EX). unfold nonempty1. rewrite EX. cbn in HR. rewrite EX in HR. injection HR as HR.
  destruct n; [|reflexivity]. exfalso. apply HO. rewrite <- HR. unfold window. destruct (nth_error (bufs s) b); reflexivity.
Qed.
Print Assumptions C154_components_partial.
(** In particular no component is shared by masks and lists, all of them are by slices with step 1, and integers share exactly momenta, colours (and edges). *)
Theorem C154_integer : forall c i ps, shares c (KInt i) ps <-> c = Pmu \/ c = Color \/ c = Edges.
Proof. intros c i ps. cbn. destruct c; cbn; split; intros H; try discriminate; try reflexivity; try tauto; destruct H as [H|[H|H]]; discriminate. Qed.
Print Assumptions C154_integer.

(** ** C155 *)
(** "Building an object does not tie it to the caller's arrays": false when the caller's array needs no conversion. *)
Theorem C155_construct_refuted : exists (s : st nat) nd (s' : st nat) y, valid s /\ construct s Pdg nd = (s', Ok y) /\
  read s' nd [] = Some [100; 200] /\ read (fst (write s' y (KInt 0) (fun _ => 9))) nd [] = Some [9; 200].
Proof.
  exists demo, 9. witness (construct demo Pdg 9). split; [exact demo_valid|]. repeat split; vm_compute; reflexivity.
Qed.
Print Assumptions C155_construct_refuted.
(** What is true: the object reads the caller's records; if the array has the dtype of the class and is row-contiguous, every write
    through one is seen through the other; if not, the object is isolated from everything that existed before. *)
Theorem C155_construct_partial : forall (T : Type) (s : st T) nd ready b off n c s' y l, valid s -> nth_error (objs s) nd = Some (ONd ready b off n) ->
  read s nd [] = Some l -> construct s c nd = (s', Ok y) ->
  read s' y [] = Some l /\
  (ready = true -> forall f k ps, setter f -> resolve (length l) k = Ok ps -> exists new, updated f ps l new /\
     (forall w r, In w [y; nd] -> In r [y; nd] -> read (fst (write s' w k f)) r [] = Some new)) /\
  (ready = false -> forall env, (forall o, In o env -> o < length (objs s)) -> isolated s' y env).
Proof.
  intros T s nd ready b off n c s' y l V E HR H. destruct (V nd _ E) as (lb & Hl & Lb). cbn in HR. rewrite E in HR. injection HR as HR.
  assert (Ln : length l = n) by (rewrite <- HR; eapply window_length; eauto). unfold construct, adopt in H. rewrite E in H. destruct ready.
  - injection H as <- <-. set (s' := mkSt (bufs s) (objs s ++ [OArr c b off n])). assert (G : grows s s') by apply (grows_obj_new s (OArr c b off n)).
    assert (EY : nth_error (objs s') (length (objs s)) = Some (OArr c b off n)) by apply nth_error_last. assert (EN := grows_obj _ _ _ _ G E). assert (Hl' := grows_buf _ _ _ _ G Hl). assert (W := grows_window s s' b off n lb G Hl).
    split; [cbn [read]; rewrite EY, W, HR; reflexivity|]. split; [intros _|discriminate]. intros f k ps Hf R. rewrite Ln in R.
    destruct (window_write s' b lb (map (Nat.add off) ps) f off n Hf Hl' Lb) as (WL & WN). exists (window (write_buf s' b (map (Nat.add off) ps) f) b off n). split.
    + split; [lia|]. intros p v Hp. rewrite <- HR, <- W in Hp. rewrite (WN p v Hp). assert (I : In (off + p) (map (Nat.add off) ps) <-> In p ps).
      { rewrite in_map_iff. split; [intros (q & Eq & Iq); replace p with q by lia; exact Iq | intros Iq; exists p; auto]. }
      destruct (in_dec Nat.eq_dec (off + p) (map (Nat.add off) ps)); split; intros A; try reflexivity; tauto.
    + intros w r Hw Hr. assert (EW : exists ob, nth_error (objs s') w = Some ob /\ (ob = OArr c b off n \/ ob = ONd true b off n)) by (destruct Hw as [<-|[<-|[]]]; eauto).
      destruct EW as (ow & EW & DW). assert (ER : exists ob, nth_error (objs s') r = Some ob /\ (ob = OArr c b off n \/ ob = ONd true b off n)) by (destruct Hr as [<-|[<-|[]]]; eauto).
      destruct ER as (or & ER & DR). cbn [read]. rewrite write_objs, ER. unfold write. rewrite EW. destruct DW as [->| ->]; rewrite R; destruct DR as [->| ->]; reflexivity.
  - pose proof (valid_owned s V) as OW. pose proof (new_buf_ext true s _ _ (window s b off n) OW) as NB. destruct (new_buf s (window s b off n)) as (s1, b1) eqn:EB. destruct NB as (cb1 & X & L1 & C1). rewrite HR in *.
    assert (SF := safe_new true s1 (fun _ => false) cb1 (OArr c b1 0 (length l)) (x_owned _ _ _ _ _ _ _ X)). rewrite H in SF.
    split; [|split; [discriminate|]].
    + unfold new_buf in EB. injection EB as <- <-. unfold new_obj in H. cbn in H. injection H as <- <-. cbn. rewrite nth_error_last. unfold window. cbn. rewrite nth_error_last. cbn. rewrite firstn_all. reflexivity.
    + intros _ env HE. eapply safe_isolated; [exact V | exact HE | | reflexivity]. eapply safe_ext; [exact X|]. apply SF; [|intros k []]. cbn. intros b' Eb. injection Eb as <-. auto.
Qed.
Print Assumptions C155_construct_partial.
Example C155_demo : exists s' y, construct demo Pdg 10 = (s', Ok y) /\ read s' y [] = Some [300; 400] /\ isolated s' y [10; 0].
Proof.
  witness (construct demo Pdg 10). split; [vm_compute; reflexivity|]. split; [vm_compute; reflexivity|].
  refine (proj2 (proj2 (C155_construct_partial nat demo 10 false 5 0 2 Pdg _ _ [300; 400] demo_valid _ _ _)) eq_refl _ _); try (vm_compute; reflexivity).
  intros o [<-|[<-|[]]]; apply Nat.ltb_lt; reflexivity.
Qed.
