(** Lemmas about slices in memory: window programs lifted to the memory,
    append, reslice, framing. *)
From Verif Require Export BaseLemmas Spec.

Section Mem.
Context {T : Type}.
Implicit Types (m : mem T) (s : slice) (w : list T).

Lemma write_at_twice m s w w' :
  wf_slice m s -> zlen w = s_len s -> zlen w' = s_len s ->
  write_at (write_at m s 0 w) s 0 w' = write_at m s 0 w'.
Proof.
  intros (H1 & H2 & H3 & H4) Hw Hw'. unfold write_at at 1. unfold arr_of.
  rewrite write_at_nth by auto. unfold write_at. rewrite upd_upd.
  f_equal. rewrite Z.add_0_r. apply zwrite_zwrite; lia.
Qed.

Lemma wf_write_self m s w :
  wf_slice m s -> zlen w = s_len s -> wf_slice (write_at m s 0 w) s.
Proof.
  intros Hwf Hw. pose proof Hwf as (H1 & H2 & H3 & H4).
  apply wf_write_at; auto; lia.
Qed.

Lemma on_slice_at {A} m s w (p : W T A) o w' :
  wf_slice m s -> zlen w = s_len s -> p w = (o, w') -> zlen w' = s_len s ->
  on_slice s p (write_at m s 0 w) = (o, write_at m s 0 w').
Proof.
  intros Hwf Hw Hp Hw'. rewrite (on_slice_run s p (write_at m s 0 w) o w').
  - now rewrite write_at_twice.
  - now rewrite contents_write_at.
Qed.

Lemma on_slice_start {A} m s (p : W T A) o w' :
  wf_slice m s -> p (contents m s) = (o, w') ->
  on_slice s p m = (o, write_at m s 0 w').
Proof. intros _ H. now apply on_slice_run. Qed.

Lemma contents_sub m s w n :
  wf_slice m s -> zlen w = s_len s -> 0 <= n <= s_len s ->
  contents (write_at m s 0 w) (mkSlice (s_arr s) (s_off s) n (s_cap s)) = zsub w 0 n.
Proof.
  intros Hwf Hw Hn. pose proof Hwf as (H1 & H2 & H3 & H4).
  rewrite <- (contents_write_at m s w Hwf Hw) at 2.
  apply zlist_eq. intros i Hi. rewrite zget_zsub by lia.
  pose proof (wf_write_self m s w Hwf Hw) as Kwf. pose proof Kwf as (K1 & K2 & K3 & K4).
  assert (Kwf' : wf_slice (write_at m s 0 w) (mkSlice (s_arr s) (s_off s) n (s_cap s)))
    by (unfold wf_slice, arr_of in *; simpl; lia).
  rewrite (zget_contents _ _ i Kwf' Hi). replace (0 + i) with i by lia.
  rewrite (zget_contents _ _ i Kwf Hi). unfold arr_of. simpl.
  destruct (Z.ltb_spec i n), (Z.ltb_spec i (n - 0)), (Z.ltb_spec i (s_len s)); auto; lia.
Qed.

Lemma same_except_write m s w :
  wf_slice m s -> zlen w = s_len s ->
  same_except m (write_at m s 0 w) (s_arr s) (s_off s) (s_off s + s_len s).
Proof.
  intros (H1 & H2 & H3 & H4) Hw. split; [|split].
  - intros b Hb. now rewrite write_at_nth_other.
  - intros i Hi Hout. rewrite write_at_nth by auto. unfold arr_of.
    rewrite zget_zwrite; unfold arr_of in *; try lia.
    destruct (Z.leb_spec (s_off s + 0) i), (Z.ltb_spec i (s_off s + 0 + zlen w)); simpl; auto; lia.
  - rewrite write_at_length. split; [|auto]. rewrite write_at_nth by auto. unfold arr_of in *. rewrite zlen_zwrite; lia.
Qed.

Lemma same_except_refl m a lo hi : same_except m m a lo hi.
Proof. repeat split; auto. Qed.

Lemma extends_refl m : extends m m.
Proof. split; auto. Qed.

Lemma extends_app m l : extends m (m ++ [l]).
Proof.
  split.
  - rewrite app_length. lia.
  - intros a Ha. now rewrite app_nth1.
Qed.

Lemma extends_trans m1 m2 m3 : extends m1 m2 -> extends m2 m3 -> extends m1 m3.
Proof.
  intros [H1 H2] [K1 K2]. split; [lia|]. intros a Ha. rewrite K2 by lia. auto.
Qed.

Lemma extends_contents m m' s : extends m m' -> (s_arr s < length m)%nat -> contents m' s = contents m s.
Proof. intros [H1 H2] Hs. unfold contents, arr_of. now rewrite H2. Qed.

Lemma extends_wf m m' s : extends m m' -> wf_slice m s -> wf_slice m' s.
Proof.
  intros [H1 H2] (K1 & K2 & K3 & K4). unfold wf_slice, arr_of in *. rewrite H2 by auto.
  repeat split; auto; lia.
Qed.

(** append: the contents are the old ones plus the new; either the old storage
    is reused, writing only the spare slots, or fresh storage is used and the
    old memory is untouched. *)
Lemma append_list_ok zero grow s xs m :
  wf_slice m s ->
  exists s' m', append_list zero grow s xs m = (Ok s', m') /\
    wf_slice m' s' /\ contents m' s' = contents m s ++ xs /\
    s_len s' = s_len s + zlen xs /\
    (if s_len s + zlen xs <=? s_cap s
     then s_arr s' = s_arr s /\ s_off s' = s_off s /\ s_cap s' = s_cap s /\
          m' = write_at m s (s_len s) xs
     else s_arr s' = length m /\ s_off s' = 0 /\ s_cap s' >= s_len s + zlen xs /\ extends m m').
Proof.
  intros Hwf. pose proof Hwf as (H1 & H2 & H3 & H4). pose proof (zlen_nonneg xs).
  unfold append_list. destruct (Z.leb_spec (s_len s + zlen xs) (s_cap s)) as [L|L].
  - eexists _, _. split; [reflexivity|].
    assert (Hwf' : wf_slice (write_at m s (s_len s) xs) (mkSlice (s_arr s) (s_off s) (s_len s + zlen xs) (s_cap s))).
    { apply wf_write_at; auto; try lia. repeat split; simpl; auto; lia. }
    split; [auto|]. split; [|simpl; auto].
    apply zlist_eq. intros i Hi. rewrite zget_contents by auto. simpl.
    unfold arr_of at 1. simpl. rewrite write_at_nth by auto.
    rewrite zget_app, zlen_contents by auto. rewrite zget_contents by auto.
    rewrite zget_zwrite by lia.
    destruct (Z.ltb_spec i (s_len s + zlen xs)), (Z.ltb_spec i (s_len s)),
      (Z.leb_spec (s_off s + s_len s) (s_off s + i)), (Z.ltb_spec (s_off s + i) (s_off s + s_len s + zlen xs)); simpl; auto; try lia.
    + f_equal. lia.
    + symmetry. apply zget_None. lia.
  - unfold alloc. set (c := Z.max (s_len s + zlen xs) (grow (s_cap s) (s_len s + zlen xs))).
    set (l := contents m s ++ xs ++ repeat zero (Z.to_nat (c - (s_len s + zlen xs)))).
    assert (Hl : zlen l = c).
    { unfold l. rewrite !zlen_app, zlen_repeat, zlen_contents by auto. lia. }
    eexists _, _. split; [reflexivity|].
    assert (Harr : forall n c', arr_of (m ++ [l]) (mkSlice (length m) 0 n c') = l).
    { intros. unfold arr_of. simpl. rewrite app_nth2 by lia. now rewrite Nat.sub_diag. }
    assert (Hwf' : wf_slice (m ++ [l]) (mkSlice (length m) 0 (s_len s + zlen xs) (zlen l))).
    { unfold wf_slice. rewrite Harr. simpl. rewrite app_length. simpl. lia. }
    split; [auto|]. split.
    + unfold contents at 1. rewrite Harr. simpl. unfold l. rewrite app_assoc.
      unfold zsub. rewrite Z.sub_0_r. simpl skipn. rewrite firstn_app.
      rewrite firstn_all2 by (rewrite app_length; pose proof (zlen_contents m s Hwf) as Hc; unfold zlen in *; lia).
      replace (_ - length _)%nat with O.
      2:{ rewrite app_length. pose proof (zlen_contents m s Hwf) as Hc; unfold zlen in *; lia. }
      simpl. now rewrite app_nil_r.
    + simpl. repeat split; auto; try lia; try apply extends_app.
Qed.

Lemma reslice_ok s lo hi :
  0 <= lo <= hi -> hi <= s_cap s ->
  reslice s lo hi = Ok (mkSlice (s_arr s) (s_off s + lo) (hi - lo) (s_cap s - lo)).
Proof.
  intros. unfold reslice. destruct (Z.leb_spec 0 lo), (Z.leb_spec lo hi), (Z.leb_spec hi (s_cap s)); simpl; auto; lia.
Qed.

Lemma reslice_panic s lo hi :
  ~ (0 <= lo <= hi /\ hi <= s_cap s) -> reslice s lo hi = Panic.
Proof.
  intros. unfold reslice. destruct (Z.leb_spec 0 lo), (Z.leb_spec lo hi), (Z.leb_spec hi (s_cap s)); simpl; auto; lia.
Qed.

Lemma wf_reslice m s lo hi :
  wf_slice m s -> 0 <= lo <= hi -> hi <= s_cap s ->
  wf_slice m (mkSlice (s_arr s) (s_off s + lo) (hi - lo) (s_cap s - lo)).
Proof. intros (H1 & H2 & H3 & H4) H5 H6. unfold wf_slice, arr_of in *. simpl. lia. Qed.

(** Contents of s[lo:hi] when hi is within the length. *)
Lemma contents_reslice m s lo hi :
  wf_slice m s -> 0 <= lo <= hi -> hi <= s_len s ->
  contents m (mkSlice (s_arr s) (s_off s + lo) (hi - lo) (s_cap s - lo)) = zsub (contents m s) lo hi.
Proof.
  intros Hwf H5 H6. pose proof Hwf as (H1 & H2 & H3 & H4).
  apply zlist_eq. intros i Hi. rewrite zget_contents; auto; [|apply wf_reslice; auto; lia].
  rewrite zget_zsub by lia. rewrite zget_contents by (auto; lia). simpl.
  destruct (Z.ltb_spec i (hi - lo)), (Z.ltb_spec (lo + i) (s_len s)); auto; try lia.
  unfold arr_of. simpl. f_equal. lia.
Qed.

Lemma same_except_write_at m s pos xs lo hi :
  wf_slice m s -> 0 <= pos -> s_off s + pos + zlen xs <= zlen (arr_of m s) ->
  lo <= s_off s + pos -> s_off s + pos + zlen xs <= hi ->
  same_except m (write_at m s pos xs) (s_arr s) lo hi.
Proof.
  intros (H1 & H2 & H3 & H4) Hp Hx Hlo Hhi. split; [|split].
  - intros b Hb. now rewrite write_at_nth_other.
  - intros i Hi Hout. rewrite write_at_nth by auto. fold (arr_of m s).
    rewrite zget_zwrite by lia.
    destruct (Z.leb_spec (s_off s + pos) i), (Z.ltb_spec i (s_off s + pos + zlen xs)); simpl; auto; lia.
  - rewrite write_at_length. split; [|auto]. rewrite write_at_nth by auto. fold (arr_of m s). rewrite zlen_zwrite; lia.
Qed.

Lemma same_except_trans m1 m2 m3 a lo hi :
  same_except m1 m2 a lo hi -> same_except m2 m3 a lo hi -> same_except m1 m3 a lo hi.
Proof.
  intros (A1 & A2 & A3) (B1 & B2 & B3). split; [|split].
  - intros b Hb. rewrite A1; auto.
  - intros i Hi Ho. rewrite A2; auto.
  - lia.
Qed.

Lemma same_except_weaken m1 m2 a lo hi lo' hi' :
  same_except m1 m2 a lo hi -> lo' <= lo -> hi <= hi' -> same_except m1 m2 a lo' hi'.
Proof.
  intros (A1 & A2 & A3) Hlo Hhi. split; [auto|split]; [|lia].
  intros i Hi Ho. apply A2; auto. lia.
Qed.

Lemma extends_write m m' s pos xs :
  extends m m' -> (length m <= s_arr s)%nat -> extends m (write_at m' s pos xs).
Proof.
  intros [H1 H2] Hs. split; [now rewrite write_at_length|].
  intros a Ha. rewrite write_at_nth_other by lia. auto.
Qed.

Lemma lift_mem_ok {A} (p : M (mem T) A) m (h : slice) a m' :
  p m = (Ok a, m') -> lift_mem p (m, h) = (Ok a, (m', h)).
Proof. intros H. unfold lift_mem. simpl. now rewrite H. Qed.

Lemma bind_get_hdr {A} (k : slice -> M (cell T) A) m (h : slice) : bind get_hdr k (m, h) = k h (m, h).
Proof. reflexivity. Qed.
Lemma bind_set_hdr {A} (k : unit -> M (cell T) A) m (h h' : slice) : bind (set_hdr h') k (m, h) = k tt (m, h').
Proof. reflexivity. Qed.


Lemma sload_ok m s i v : wf_slice m s -> zget (contents m s) i = Some v -> sload s i m = (Ok v, m).
Proof.
  intros Hwf H. unfold sload. rewrite (on_slice_run s (wload i) m (Ok v) (contents m s)).
  - now rewrite write_at_same.
  - now apply wload_ok.
Qed.
Lemma sload_panic m s i : wf_slice m s -> zget (contents m s) i = None -> sload s i m = (Panic, m).
Proof.
  intros Hwf H. unfold sload. rewrite (on_slice_run s (wload i) m Panic (contents m s)).
  - now rewrite write_at_same.
  - unfold wload. now rewrite H.
Qed.
Lemma sstore_ok m s i v : wf_slice m s -> 0 <= i < s_len s ->
  sstore s i v m = (Ok tt, write_at m s 0 (zupd (contents m s) i v)).
Proof.
  intros Hwf H. unfold sstore. apply on_slice_run. pose proof (zlen_contents m s Hwf).
  destruct (zget_range (contents m s) i) as [x Hx]; [lia|]. unfold wstore. now rewrite Hx.
Qed.
Lemma sstore_panic m s i v : wf_slice m s -> ~ (0 <= i < s_len s) -> sstore s i v m = (Panic, m).
Proof.
  intros Hwf H. unfold sstore. rewrite (on_slice_run s _ m Panic (contents m s)).
  - now rewrite write_at_same.
  - pose proof (zlen_contents m s Hwf). unfold wstore.
    rewrite (proj2 (zget_None (contents m s) i)) by lia. auto.
Qed.

Lemma lift_mem_panic {A} (p : M (mem T) A) m (h : slice) m' :
  p m = (Panic, m') -> lift_mem p (m, h) = (Panic, (m', h)).
Proof. intros H. unfold lift_mem. simpl. now rewrite H. Qed.

Lemma wf_nil m : (0 < length m)%nat -> wf_slice m nil_slice.
Proof. intros H. unfold wf_slice, nil_slice. simpl. pose proof (zlen_nonneg (arr_of m {| s_arr := 0; s_off := 0; s_len := 0; s_cap := 0 |})). lia. Qed.
Lemma contents_nil m : contents m nil_slice = [].
Proof. reflexivity. Qed.

Lemma contents_empty m s : wf_slice m s -> s_len s = 0 -> contents m s = [].
Proof.
  intros Hwf H. pose proof (zlen_contents m s Hwf) as Hz. rewrite H in Hz.
  destruct (contents m s) as [|x r]; auto. rewrite zlen_cons in Hz. pose proof (zlen_nonneg r). lia.
Qed.

(** A reslice s[0:n] of a well-formed slice with n within the length. *)
Lemma wf_prefix m s n : wf_slice m s -> 0 <= n <= s_cap s ->
  wf_slice m (mkSlice (s_arr s) (s_off s) n (s_cap s)).
Proof. intros (H1 & H2 & H3 & H4) H. unfold wf_slice, arr_of in *. simpl. lia. Qed.
Lemma contents_prefix m s n : wf_slice m s -> 0 <= n <= s_len s ->
  contents m (mkSlice (s_arr s) (s_off s) n (s_cap s)) = zsub (contents m s) 0 n.
Proof.
  intros Hwf H. pose proof (contents_reslice m s 0 n Hwf ltac:(lia) ltac:(lia)) as E.
  rewrite Z.add_0_r, !Z.sub_0_r in E. auto.
Qed.
Lemma reslice_prefix s n : 0 <= n <= s_cap s ->
  reslice s 0 n = Ok (mkSlice (s_arr s) (s_off s) n (s_cap s)).
Proof. intros H. rewrite reslice_ok by lia. now rewrite Z.add_0_r, !Z.sub_0_r. Qed.

Lemma wf_make zero m n c s m' : make_slice zero n c m = (Ok s, m') -> wf_slice m' s /\ contents m' s = repeat zero (Z.to_nat n) /\ s_len s = n /\ s_cap s = c /\ s_arr s = length m /\ s_off s = 0 /\ extends m m'.
Proof.
  unfold make_slice. destruct ((0 <=? n) && (n <=? c)) eqn:E; [|discriminate].
  unfold alloc. intros H; inversion H; subst; clear H.
  assert (Ha : forall n', arr_of (m ++ [repeat zero (Z.to_nat c)]) (mkSlice (length m) 0 n' (zlen (repeat zero (Z.to_nat c)))) = repeat zero (Z.to_nat c)).
  { intros. unfold arr_of. simpl. rewrite app_nth2 by lia. now rewrite Nat.sub_diag. }
  split.
  - unfold wf_slice. rewrite Ha. simpl. rewrite app_length, zlen_repeat. simpl. lia.
  - split; [|simpl; rewrite zlen_repeat; repeat split; try lia; auto using extends_app].
    + unfold contents. rewrite Ha. simpl. unfold zsub. simpl. rewrite Z.sub_0_r.
      replace (Z.to_nat c) with (Z.to_nat n + (Z.to_nat c - Z.to_nat n))%nat by lia.
      rewrite repeat_app, firstn_app, repeat_length, Nat.sub_diag. simpl. rewrite app_nil_r.
      apply firstn_all2. rewrite repeat_length. lia.
    + rewrite app_length. lia.
    + intros a Ha'. now rewrite app_nth1.
Qed.

End Mem.
