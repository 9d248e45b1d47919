(** Pointwise view of memory: one cell at a time. *)
From Verif Require Import BaseLemmas Spec Proof_Mem.

Section Peek.
Context {T : Type}.
Implicit Types (m : mem T) (s : slice).

Definition peek m (a : nat) (p : Z) : option T := zget (nth a m []) p.

(** Same number of arrays, same sizes. *)
Definition mshape m m' : Prop :=
  length m' = length m /\ forall a, zlen (nth a m' []) = zlen (nth a m []).

Lemma mshape_refl m : mshape m m.
Proof. split; auto. Qed.
Lemma mshape_trans m1 m2 m3 : mshape m1 m2 -> mshape m2 m3 -> mshape m1 m3.
Proof. intros [A B] [C D]. split; [lia|]. intros a. rewrite D. auto. Qed.

Lemma wf_shape m m' s : mshape m m' -> wf_slice m s -> wf_slice m' s.
Proof. intros [A B] (H1 & H2 & H3 & H4). unfold wf_slice, arr_of in *. rewrite B. split; [lia|auto]. Qed.

Lemma zget_contents_peek m s i : wf_slice m s ->
  zget (contents m s) i = if (0 <=? i) && (i <? s_len s) then peek m (s_arr s) (s_off s + i) else None.
Proof.
  intros H. destruct (Z.leb_spec 0 i); simpl.
  - rewrite zget_contents by auto. reflexivity.
  - apply zget_lt0. lia.
Qed.

Lemma peek_write m s pos xs a p :
  (s_arr s < length m)%nat -> 0 <= s_off s + pos -> s_off s + pos + zlen xs <= zlen (arr_of m s) -> 0 <= p ->
  peek (write_at m s pos xs) a p =
  if (a =? s_arr s)%nat && (s_off s + pos <=? p) && (p <? s_off s + pos + zlen xs)
  then zget xs (p - (s_off s + pos)) else peek m a p.
Proof.
  intros H1 H2 H3 H4. unfold peek. destruct (Nat.eqb_spec a (s_arr s)) as [->|N]; simpl.
  - rewrite write_at_nth by auto. rewrite zget_zwrite by lia. reflexivity.
  - rewrite write_at_nth_other by auto. reflexivity.
Qed.

Lemma mshape_write m s pos xs :
  (s_arr s < length m)%nat -> 0 <= s_off s + pos -> s_off s + pos + zlen xs <= zlen (arr_of m s) ->
  mshape m (write_at m s pos xs).
Proof.
  intros H1 H2 H3. split; [apply write_at_length|]. intros a.
  destruct (Nat.eq_dec a (s_arr s)) as [->|N].
  - rewrite write_at_nth by auto. rewrite zlen_zwrite; auto.
  - now rewrite write_at_nth_other.
Qed.

Lemma peek_Some_ge m a p v : peek m a p = Some v -> 0 <= p.
Proof. intros H. apply zget_Some_range in H. lia. Qed.

Lemma copy_slice_ok m d s : wf_slice m d -> wf_slice m s ->
  exists m', copy_slice d s m = (Ok tt, m') /\ mshape m m' /\
  forall a p, 0 <= p -> peek m' a p =
    if (a =? s_arr d)%nat && (s_off d <=? p) && (p <? s_off d + Z.min (s_len d) (s_len s))
    then peek m (s_arr s) (s_off s + (p - s_off d)) else peek m a p.
Proof.
  intros Hd Hs. pose proof Hd as (D1 & D2 & D3 & D4). pose proof Hs as (S1 & S2 & S3 & S4).
  pose proof (zlen_contents m s Hs) as Hz.
  set (n := Z.min (s_len d) (s_len s)).
  assert (Hn : zlen (zsub (contents m s) 0 n) = n) by (rewrite zlen_zsub; lia).
  eexists. split; [reflexivity|]. fold n. split.
  - apply mshape_write; auto; lia.
  - intros a p Hp. rewrite peek_write by (auto; lia). rewrite Hn, Z.add_0_r.
    destruct ((a =? s_arr d)%nat && (s_off d <=? p) && (p <? s_off d + n)) eqn:E; auto.
    apply andb_prop in E as [E1 E3]. apply andb_prop in E1 as [E1 E2].
    rewrite Z.leb_le in E2. rewrite Z.ltb_lt in E3.
    rewrite zget_zsub by lia. destruct (Z.ltb_spec (p - s_off d) (n - 0)); [|lia].
    rewrite zget_contents_peek by auto. rewrite Z.add_0_l.
    destruct (Z.leb_spec 0 (p - s_off d)), (Z.ltb_spec (p - s_off d) (s_len s)); simpl; auto; lia.
Qed.

Lemma contents_ext m m' s s' : wf_slice m s -> wf_slice m' s' -> s_len s = s_len s' ->
  (forall i, 0 <= i < s_len s -> peek m (s_arr s) (s_off s + i) = peek m' (s_arr s') (s_off s' + i)) ->
  contents m s = contents m' s'.
Proof.
  intros H1 H2 Hl H. apply zlist_eq. intros i Hi. rewrite !zget_contents_peek by auto.
  rewrite <- Hl. destruct (Z.leb_spec 0 i), (Z.ltb_spec i (s_len s)); simpl; auto; apply H; lia.
Qed.

(** same_except, pointwise. *)
Lemma same_except_peek m m' a lo hi :
  mshape m m' ->
  (forall b p, 0 <= p -> b <> a \/ p < lo \/ hi <= p -> peek m' b p = peek m b p) ->
  same_except m m' a lo hi.
Proof.
  intros [A B] H. split; [|split].
  - intros b Hb. apply zlist_eq. intros i Hi. symmetry. apply H; auto.
  - intros i Hi Ho. symmetry. apply H; auto.
  - split; [now rewrite B|auto].
Qed.

Lemma extends_peek m m' : extends m m' -> forall a p, (a < length m)%nat -> peek m' a p = peek m a p.
Proof. intros [_ H] a p Ha. unfold peek. now rewrite H. Qed.

Lemma extends_shape m m1 m2 : extends m m1 -> mshape m1 m2 ->
  (forall a p, (a < length m)%nat -> 0 <= p -> peek m2 a p = peek m1 a p) -> extends m m2.
Proof.
  intros [A B] [C D] H. split; [lia|]. intros a Ha. rewrite <- B by auto.
  apply zlist_eq. intros i Hi. now apply H.
Qed.
End Peek.
