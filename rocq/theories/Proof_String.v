(** Texts joined by spaces can be taken apart again. *)
From Coq Require Import String Ascii.
From Coq Require DecimalString DecimalZ DecimalPos.
From Verif Require Import BaseLemmas Spec_BSet Spec_String Model_String.

Lemma print_elems_S ws : forall i, (0 < i)%nat -> print_elems i ws = String.concat "" (map (fun w => " " ++ w) ws)%string.
Proof.
  induction ws as [|w r IH]; intros i H; [reflexivity|]. cbn [print_elems map]. destruct i as [|i]; [lia|]. cbn [Nat.ltb Nat.leb]. rewrite IH by lia.
  destruct r as [|w' r]; cbn [map String.concat append]; [|reflexivity]. f_equal. clear. induction w as [|c w IH]; [reflexivity|]. cbn [append]. now rewrite IH.
Qed.
Lemma append_nil_r s : (s ++ "")%string = s.
Proof. induction s as [|c s IH]; [reflexivity|]. cbn [append]. now rewrite IH. Qed.
Lemma append_assoc a b c : ((a ++ b) ++ c)%string = (a ++ (b ++ c))%string.
Proof. induction a as [|x a IH]; [reflexivity|]. cbn [append]. now rewrite IH. Qed.
(** fmt's loop joins the texts with spaces. *)
Lemma print_slice_concat ws : print_slice ws = ("[" ++ String.concat " " ws ++ "]")%string.
Proof.
  unfold print_slice. do 2 f_equal. destruct ws as [|w r]; [reflexivity|]. cbn [print_elems Nat.ltb Nat.leb append].
  enough (E : forall w, (w ++ print_elems 1 r)%string = String.concat " " (w :: r)) by now rewrite E.
  induction r as [|w' r IH]; intros v; [apply append_nil_r|]. change (String.concat " " (v :: w' :: r)) with (v ++ " " ++ String.concat " " (w' :: r))%string. rewrite <- IH.
  cbn [print_elems Nat.ltb Nat.leb]. now rewrite !print_elems_S by lia.
Qed.

Lemma append_length a b : String.length (a ++ b) = (String.length a + String.length b)%nat.
Proof. induction a as [|c a IH]; [reflexivity|]. cbn [append String.length]. now rewrite IH. Qed.
Lemma append_cancel_l p a b : (p ++ a = p ++ b)%string -> a = b.
Proof. induction p as [|c p IH]; cbn [append]; intros E; [auto|]. injection E as E. auto. Qed.
Lemma append_cancel_r q : forall a b, (a ++ q = b ++ q)%string -> a = b.
Proof.
  induction a as [|c a IH]; intros [|d b] E; auto.
  - apply (f_equal String.length) in E. rewrite !append_length in E. cbn [String.length] in E. lia.
  - apply (f_equal String.length) in E. rewrite !append_length in E. cbn [String.length] in E. lia.
  - cbn [append] in E. injection E as E1 E2. subst. f_equal. auto.
Qed.

Definition spaced (r : string) : Prop := r = ""%string \/ exists t, r = (" " ++ t)%string.
Lemma word_split : forall w1 w2 r1 r2, ~ has_space w1 -> ~ has_space w2 -> spaced r1 -> spaced r2 -> (w1 ++ r1 = w2 ++ r2)%string -> w1 = w2 /\ r1 = r2.
Proof.
  unfold has_space. induction w1 as [|c w1 IH]; intros [|d w2] r1 r2 N1 N2 S1 S2 E; cbn [append] in E; auto.
  - exfalso. destruct S1 as [->|(t & ->)]; [discriminate|]. cbn [append] in E. injection E as <- E. apply N2. now left.
  - exfalso. destruct S2 as [->|(t & ->)]; [discriminate|]. cbn [append] in E. injection E as -> E. apply N1. now left.
  - injection E as <- E. destruct (IH w2 r1 r2) as [<- <-]; auto; intros H; [apply N1|apply N2]; now right.
Qed.
Lemma concat_cons w r : String.concat " " (w :: r) = (w ++ match r with [] => "" | _ => " " ++ String.concat " " r end)%string.
Proof. destruct r; [symmetry; apply append_nil_r|reflexivity]. Qed.
Lemma concat_words : forall l1 l2, (forall w, In w l1 \/ In w l2 -> w <> ""%string /\ ~ has_space w) -> String.concat " " l1 = String.concat " " l2 -> l1 = l2.
Proof.
  induction l1 as [|w l1 IH]; intros [|v l2] G E; auto.
  - exfalso. rewrite concat_cons in E. destruct (G v) as [N _]; [right; now left|]. destruct v; [auto|discriminate].
  - exfalso. rewrite concat_cons in E. destruct (G w) as [N _]; [left; now left|]. destruct w; [auto|discriminate].
  - rewrite !concat_cons in E. apply word_split in E as [-> E].
    + f_equal. apply IH; [intros x [H|H]; apply G; [left|right]; now right|].
      destruct l1 as [|a l1], l2 as [|b l2]; auto; try discriminate. now apply append_cancel_l in E.
    + apply (G w). left. now left.
    + apply (G v). right. now left.
    + destruct l1; [now left|right; eauto].
    + destruct l2; [now left|right; eauto].
Qed.

(** Decimal texts. *)
Lemma uint_no_space d : ~ has_space (DecimalString.NilEmpty.string_of_uint d).
Proof. unfold has_space. induction d; cbn [DecimalString.NilEmpty.string_of_uint list_ascii_of_string]; intros H; [destruct H|..]; (destruct H as [H|H]; [discriminate H|auto]). Qed.
Lemma uint_ok d : DecimalString.NilZero.string_of_uint d <> ""%string /\ ~ has_space (DecimalString.NilZero.string_of_uint d).
Proof.
  unfold DecimalString.NilZero.string_of_uint. destruct d; [split; [discriminate|intros [H|[]]; discriminate H]|..];
  (split; [discriminate|apply uint_no_space]).
Qed.
Lemma to_int_not_nil z : Z.to_int z <> Decimal.Pos Decimal.Nil /\ Z.to_int z <> Decimal.Neg Decimal.Nil.
Proof.
  destruct z as [|p|p]; cbn [Z.to_int]; split; intros H; try discriminate; injection H as H; now apply DecimalPos.Unsigned.to_uint_nonnil in H.
Qed.
Lemma decimal_telling : telling Z.eqb decimal.
Proof.
  split.
  - intros z. unfold decimal. destruct (Z.to_int z) as [d|d]; cbn [DecimalString.NilZero.string_of_int]; [apply uint_ok|]. split; [discriminate|]. intros [H|H]; [discriminate H|]. now apply uint_ok in H.
  - intros a b E. apply Z.eqb_eq. apply DecimalZ.to_int_inj. unfold decimal in E.
    destruct (to_int_not_nil a) as [A1 A2], (to_int_not_nil b) as [B1 B2]. apply (f_equal DecimalString.NilZero.int_of_string) in E. rewrite !DecimalString.NilZero.isi in E by auto. congruence.
Qed.
