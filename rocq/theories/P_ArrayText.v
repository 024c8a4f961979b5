(** C217: the text of an array. *)
From Coq Require Import Ascii.
From Verif Require Import Prelude.
From Verif Require Import ArrayText.
Open Scope string_scope.

(** * Vocabulary *)
(** [s] is one line. *)
Fixpoint one_line (s : string) : Prop := match s with "" => True | String c s => c <> "010"%char /\ one_line s end.
(** The lines of a text. *)
Fixpoint text_of (ls : list string) : string :=
  match ls with [] => "" | [l] => l | l :: ls => l ++ String "010" (text_of ls) end.
Definition lines_of (s : string) (ls : list string) : Prop := s = text_of ls /\ Forall one_line ls /\ ls <> [].
(** [r] is [s] moved right by [n] columns. *)
Definition at_column (n : nat) (s r : string) : Prop := exists pad, r = pad ++ s /\ String.length pad = n.
Definition blank_to (n : nat) (r : string) : Prop := exists s, r = spaces n ++ s.

(** * Lemmas *)
Lemma sapp_assoc (a b c : string) : (a ++ b) ++ c = a ++ (b ++ c).
Proof. induction a as [|x a IH]; cbn; [reflexivity | rewrite IH; reflexivity]. Qed.
Lemma split_one s : one_line s -> split_lines s = [s].
Proof. induction s as [|c s IH]; [reflexivity|]. intros (N & H). cbn. rewrite IH by exact H. apply Ascii.eqb_neq in N. unfold newline. rewrite N. reflexivity. Qed.
Lemma split_app l s : one_line l -> split_lines (l ++ String "010" s) = l :: split_lines s.
Proof.
  assert (NE : split_lines s <> []). { induction s as [|c s IH]; cbn; [discriminate|]. destruct (split_lines s); [congruence|]. destruct (Ascii.eqb c newline); discriminate. }
  induction l as [|c l IH]; cbn.
  - destruct (split_lines s); [congruence | reflexivity].
  - intros (N & H). rewrite IH by exact H. apply Ascii.eqb_neq in N. unfold newline. rewrite N. reflexivity.
Qed.
Lemma split_text ls : Forall one_line ls -> ls <> [] -> split_lines (text_of ls) = ls.
Proof.
  induction 1 as [|l ls H HS IH]; [congruence|]. intros _. destruct ls as [|l' ls]; [apply split_one; exact H|].
  change (text_of (l :: l' :: ls)) with (l ++ String "010" (text_of (l' :: ls))). rewrite split_app by exact H. rewrite IH by discriminate. reflexivity.
Qed.
Lemma lines_unique s ls ls' : lines_of s ls -> lines_of s ls' -> ls = ls'.
Proof. intros (E & F & N) (E' & F' & N'). rewrite <- (split_text ls F N), <- (split_text ls' F' N'). congruence. Qed.
Lemma lines_exist s : exists ls, lines_of s ls.
Proof.
  induction s as [|c s (ls & E & F & N)]; [exists [""]; split; [reflexivity|]; split; [repeat constructor | discriminate]|].
  destruct ls as [|l ls]; [congruence|]. inversion F; subst. destruct (ascii_dec c "010") as [->|NE].
  - exists ("" :: l :: ls). split; [reflexivity|]. split; [constructor; [exact I | constructor; assumption] | discriminate].
  - exists (String c l :: ls). split; [destruct ls; reflexivity|]. split; [constructor; [split; assumption | assumption] | discriminate].
Qed.
Lemma one_app a b : one_line a -> one_line b -> one_line (a ++ b).
Proof. induction a as [|c a IH]; cbn; [auto|]. intros (N & A) B. split; auto. Qed.
Lemma one_spaces n : one_line (spaces n).
Proof. induction n; cbn; [exact I|]. split; [discriminate | assumption]. Qed.
Lemma len_spaces n : String.length (spaces n) = n.
Proof. induction n; cbn; auto. Qed.
Lemma concat_text ls : ls <> [] -> String.concat nl ls = text_of ls.
Proof. induction ls as [|l [|l' ls] IH]; [congruence | reflexivity|]. intros _. change (l ++ nl ++ String.concat nl (l' :: ls) = l ++ String "010" (text_of (l' :: ls))). rewrite IH by discriminate. reflexivity. Qed.
Lemma text_snoc ls l : ls <> [] -> text_of (ls ++ [l]) = text_of ls ++ String "010" l.
Proof.
  induction ls as [|a [|b ls] IH]; [congruence | reflexivity|]. intros _. change (text_of ((a :: b :: ls) ++ [l])) with (a ++ String "010" (text_of ((b :: ls) ++ [l]))).
  rewrite IH by discriminate. change (text_of (a :: b :: ls)) with (a ++ String "010" (text_of (b :: ls))). rewrite sapp_assoc. reflexivity.
Qed.
Lemma text_end ls l s : text_of (ls ++ [l]) ++ s = text_of (ls ++ [l ++ s]).
Proof.
  induction ls as [|a ls IH]; [reflexivity|]. assert (N : forall x : string, (ls ++ [x])%list <> []) by (intros x E; apply app_eq_nil in E as (_ & E); discriminate).
  assert (T : forall r, r <> [] -> text_of (a :: r) = a ++ String "010" (text_of r)) by (intros [|? ?]; [congruence | reflexivity]).
  cbn [app]. rewrite !T by apply N. rewrite sapp_assoc. cbn [append]. rewrite IH. reflexivity.
Qed.

(** * C217 *)
(** Data that numpy writes on one line is shown on one line: class, numpy's text, dtype. *)
Theorem C217_one_line : forall class_name text dtype, lines_of text [text] -> array_repr class_name text dtype = class_name ++ "(" ++ text ++ ", dtype=" ++ dtype ++ ")".
Proof. intros c t d (_ & F & _). unfold array_repr. rewrite split_one by (inversion F; assumption). reflexivity. Qed.

(** Data that numpy writes on several lines [l0 :: mid ++ [l1]]: the same lines, in order, all starting in the column after the opening
    parenthesis (only blanks before them from the second line on), a comma after the last, and a line with the dtype in that column. *)
Theorem C217_lines : forall class_name text dtype l0 mid l1, one_line class_name -> one_line dtype -> lines_of text (l0 :: mid ++ [l1]) ->
  exists r0 rmid r1 r2, lines_of (array_repr class_name text dtype) (r0 :: rmid ++ [r1; r2]) /\
    let n := String.length class_name + 1 in
    r0 = class_name ++ "(" ++ l0 /\ at_column n l0 r0 /\ Forall2 (at_column n) mid rmid /\ at_column n (l1 ++ ",") r1 /\ at_column n ("dtype=" ++ dtype ++ ")") r2 /\
    Forall (blank_to n) (rmid ++ [r1; r2]).
Proof.
  intros c t d l0 mid l1 Hc Hd (E & F & _). set (n := String.length c + 1). set (ind := fun l => spaces n ++ l).
  exists (c ++ "(" ++ l0), (map ind mid), (ind (l1 ++ ",")), (ind ("dtype=" ++ d ++ ")")).
  assert (F' := F). inversion F' as [|? ? F0 F1]; subst. apply Forall_app in F1 as (FM & FL). inversion FL as [|? ? FL1 _]; subst.
  assert (CL : forall l, at_column n l (ind l)) by (intros l; exists (spaces n); split; [reflexivity | apply len_spaces]).
  split; [|split; [reflexivity|]; split; [|split; [|split; [apply CL | split; [apply CL|]]]]].
  - split; [|split; [|discriminate]].
    + unfold array_repr. rewrite split_text by (try exact F; discriminate). destruct (mid ++ [l1])%list as [|x xs] eqn:EM; [destruct mid; discriminate|].
      cbv zeta. fold n. change (fun l : string => spaces n ++ l) with ind. rewrite concat_text by discriminate. rewrite <- EM, map_app. cbn [map].
      replace (map ind mid ++ [ind (l1 ++ ",")%string; ind ("dtype=" ++ d ++ ")")%string])%list with ((map ind mid ++ [ind (l1 ++ ",")%string]) ++ [ind ("dtype=" ++ d ++ ")")%string])%list by (rewrite <- app_assoc; reflexivity).
      assert (T : forall r, r <> [] -> text_of ((c ++ "(" ++ l0) :: r) = (c ++ "(" ++ l0) ++ String "010" (text_of r)) by (intros [|? ?]; [congruence | reflexivity]).
      rewrite T by (let Q := fresh in intros Q; apply app_eq_nil in Q; destruct Q; discriminate). rewrite (text_snoc (map ind mid ++ [ind (l1 ++ ",")%string])%list) by (let Q := fresh in intros Q; apply app_eq_nil in Q; destruct Q; discriminate).
      replace (ind (l1 ++ ",")) with (ind l1 ++ ",") by (unfold ind; rewrite sapp_assoc; reflexivity). rewrite <- text_end. rewrite !sapp_assoc. unfold nl, newline. cbn [append]. unfold ind. repeat rewrite sapp_assoc. reflexivity.
    + assert (IN : forall l, one_line l -> one_line (ind l)) by (intros l H; apply one_app; [apply one_spaces | exact H]).
      constructor; [apply one_app; [exact Hc | split; [discriminate | exact F0]]|]. apply Forall_app. split.
      * apply Forall_forall. intros x H. apply in_map_iff in H as (y & <- & H). apply IN. rewrite Forall_forall in FM. apply FM. exact H.
      * constructor; [apply IN, one_app; [exact FL1 | split; [discriminate | exact I]]|]. constructor; [|constructor]. apply IN. cbn. repeat (split; [discriminate|]). apply one_app; [exact Hd | split; [discriminate | exact I]].
  - exists (c ++ "("). split; [rewrite sapp_assoc; reflexivity|]. unfold n. clear. induction c; cbn; [reflexivity | rewrite IHc; reflexivity].
  - clear - CL. induction mid; constructor; auto.
  - apply Forall_app. split; [apply Forall_forall; intros x H; apply in_map_iff in H as (y & <- & _); eexists; reflexivity|].
    constructor; [eexists; reflexivity | constructor; [eexists; reflexivity | constructor]].
Qed.

Lemma app_cancel a b c : a ++ b = a ++ c -> b = c.
Proof. induction a as [|x a IH]; cbn; [auto|]. intros E. injection E. exact IH. Qed.
Lemma len_app a b : String.length (a ++ b) = String.length a + String.length b.
Proof. induction a as [|x a IH]; cbn; [reflexivity | rewrite IH; reflexivity]. Qed.
Lemma app_cancel_r a b c : a ++ c = b ++ c -> a = b.
Proof.
  revert b. induction a as [|x a IH]; intros [|y b] E; cbn in E.
  - reflexivity.
  - apply (f_equal String.length) in E. cbn in E. rewrite len_app in E. lia.
  - apply (f_equal String.length) in E. cbn in E. rewrite len_app in E. lia.
  - injection E as -> E. f_equal. apply IH. exact E.
Qed.
Lemma column_cancel n a b r : at_column n a r -> at_column n b r -> a = b.
Proof.
  intros (p & -> & L) (q & E & L'). subst n. revert q L' E. induction p as [|x p IH]; intros [|y q] L' E; cbn in L', E; try discriminate; [exact E|].
  inversion E as [[E1 E2]]. injection L' as L'. exact (IH q L' E2).
Qed.

(** Nothing of numpy's text is lost: two arrays of the same class and dtype with the same text of their own have the same numpy text. *)
Theorem C217_faithful : forall class_name text text' dtype, one_line class_name -> one_line dtype ->
  array_repr class_name text dtype = array_repr class_name text' dtype -> text = text'.
Proof.
  intros c t t' d Hc Hd E.
  assert (SH : forall s, (one_line s /\ lines_of s [s]) \/ exists l0 mid l1, lines_of s (l0 :: mid ++ [l1])).
  { intros s. destruct (lines_exist s) as (ls & ET & F & N). destruct ls as [|l0 ls]; [congruence|]. destruct ls as [|l1 ls].
    - left. cbn in ET. subst. inversion F; subst. split; [assumption|]. split; [reflexivity|]. split; [assumption | discriminate].
    - right. destruct (exists_last (l := l1 :: ls)) as (mid & x & EX); [discriminate|]. rewrite EX in *. exists l0, mid, x. split; [exact ET|]. split; [exact F | discriminate]. }
  assert (SING : forall s, one_line s -> lines_of s [s] -> lines_of (array_repr c s d) [array_repr c s d]).
  { intros s O L. split; [reflexivity|]. split; [|discriminate]. constructor; [|constructor]. rewrite C217_one_line by exact L.
    apply one_app; [exact Hc|]. split; [discriminate|]. cbn [append]. apply one_app; [exact O|]. cbn. repeat (split; [discriminate|]). apply one_app; [exact Hd | split; [discriminate | exact I]]. }
  destruct (SH t) as [(O & L)|(l0 & mid & l1 & L)], (SH t') as [(O' & L')|(l0' & mid' & l1' & L')].
  - rewrite !C217_one_line in E by assumption. apply app_cancel in E. injection E as E. apply app_cancel_r in E. exact E.
  - exfalso. pose proof (SING t O L) as S. rewrite E in S. destruct (C217_lines c t' d l0' mid' l1' Hc Hd L') as (r0 & rm & r1 & r2 & S' & _).
    pose proof (lines_unique _ _ _ S S') as Q. destruct rm; discriminate.
  - exfalso. pose proof (SING t' O' L') as S. rewrite <- E in S. destruct (C217_lines c t d l0 mid l1 Hc Hd L) as (r0 & rm & r1 & r2 & S' & _).
    pose proof (lines_unique _ _ _ S S') as Q. destruct rm; discriminate.
  - destruct (C217_lines c t d l0 mid l1 Hc Hd L) as (r0 & rm & r1 & r2 & S & A0 & B0 & M0 & N0 & O0 & _).
    destruct (C217_lines c t' d l0' mid' l1' Hc Hd L') as (r0' & rm' & r1' & r2' & S' & A1 & B1 & M1 & N1 & O1 & _).
    rewrite <- E in S'. pose proof (lines_unique _ _ _ S S') as Q. injection Q as Q0 Q.
    change [r1; r2] with ([r1] ++ [r2])%list in Q. change [r1'; r2'] with ([r1'] ++ [r2'])%list in Q. rewrite !app_assoc in Q.
    apply app_inj_tail in Q as (Q & _). apply app_inj_tail in Q as (Q & Q1). clear A0 A1. subst r0' r1' rm'.
    apply (column_cancel _ _ _ _ B0) in B1. subst l0'. apply (column_cancel _ _ _ _ N0) in N1. apply app_cancel_r in N1. subst l1'.
    assert (mid = mid') as <-. { clear L L'. clear - M0 M1. revert mid' M1. induction M0 as [|a r mid rm H _ IH]; intros mid' M1; inversion M1; subst; [reflexivity|]. f_equal; [eapply column_cancel; eassumption | apply IH; assumption]. }
    destruct L as (L & _), L' as (L' & _). congruence.
Qed.

(** A concrete case: the momenta of two particles, on two lines. *)
Definition demo_text : string := "[[1. 2.]" ++ String "010" " [3. 4.]]".
Example C217_case : lines_of demo_text ("[[1. 2.]" :: [] ++ [" [3. 4.]]"]) /\
  lines_of (array_repr "MomentumArray" demo_text "float64") ["MomentumArray([[1. 2.]"; "               [3. 4.]],"; "              dtype=float64)"] /\
  array_repr "PdgArray" "[21  1]" "int32" = "PdgArray([21  1], dtype=int32)".
Proof.
  assert (O : forall ls : list string, ls <> [] -> split_lines (text_of ls) = ls -> Forall one_line ls -> lines_of (text_of ls) ls) by (intros ls N _ F; split; [reflexivity|]; split; assumption).
  split; [|split; [|reflexivity]].
  - apply (O ["[[1. 2.]"; " [3. 4.]]"]); [discriminate | reflexivity | repeat (constructor; try discriminate)].
  - apply (O ["MomentumArray([[1. 2.]"; "               [3. 4.]],"; "              dtype=float64)"]); [discriminate | reflexivity | repeat (constructor; try discriminate)].
Qed.
Print Assumptions C217_one_line.
Print Assumptions C217_lines.
Print Assumptions C217_faithful.
