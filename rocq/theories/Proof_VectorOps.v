From Verif Require Import BaseLemmas Spec Trace Proof_Mem Proof_Peek Model_Transform Proof_Transform Proof_TransformMem Model_Vector Spec_Vector Proof_Vector.

Section Vec.
Context {T : Type}.
Implicit Types (m : mem T) (s x : slice).

Lemma list_snoc (l : list T) : l = [] \/ exists l' (x : T), l = l' ++ [x].
Proof. destruct l as [|a l] using rev_ind; [auto|right; eauto]. Qed.

Lemma lit_ok m (xs : list T) :
  let x := mkSlice (length m) 0 (zlen xs) (zlen xs) in
  lit_slice xs m = (Ok x, m ++ [xs]) /\ wf_slice (m ++ [xs]) x /\ contents (m ++ [xs]) x = xs /\ extends m (m ++ [xs]).
Proof.
  intros x. split; [reflexivity|].
  assert (A : arr_of (m ++ [xs]) x = xs).
  { unfold arr_of. simpl. rewrite app_nth2 by lia. now rewrite Nat.sub_diag. }
  split; [|split; [|apply extends_app]].
  - unfold wf_slice. rewrite A. simpl. rewrite app_length. simpl. pose proof (zlen_nonneg xs). lia.
  - unfold contents. rewrite A. simpl. apply zsub_full.
Qed.

(** Reserve: same elements; if it has to grow, fresh storage of exactly the
    requested capacity. *)
Lemma Reserve_ok zero l m s : wf_slice m s ->
  exists m' s', Vector_Reserve zero l (m, s) = (Ok tt, (m', s')) /\ wf_slice m' s' /\
    contents m' s' = contents m s /\ s_cap s' = Z.max (s_cap s) l /\ extends m m' /\
    (l <= s_cap s -> m' = m /\ s' = s) /\ (s_cap s < l -> s_arr s' = length m).
Proof.
  intros Hs. pose proof Hs as (S1 & S2 & S3 & S4). unfold Vector_Reserve. rewrite bind_get_hdr.
  destruct (Z.ltb_spec (s_cap s) l) as [L|L].
  - destruct (fresh_make zero m (s_len s) l) as (t & m0 & E & (X & W & _) & C & Ln & Cp & A); [lia|].
    rewrite (bind_lift_mem _ _ _ _ _ _ E). pose proof W as (W1 & W2 & W3 & W4).
    pose proof (extends_wf _ _ _ X Hs) as Hs0.
    destruct (copy_slice_ok m0 t s W Hs0) as (m1 & E1 & Sh1 & P1). rewrite (bind_lift_mem _ _ _ _ _ _ E1).
    exists m1, t. split; [reflexivity|]. split; [now apply (wf_shape _ _ _ Sh1)|]. split.
    { apply contents_ext; auto; [now apply (wf_shape _ _ _ Sh1)|]. intros i Hi. rewrite P1 by lia.
      rewrite Nat.eqb_refl. destruct (Z.leb_spec (s_off t) (s_off t + i)), (Z.ltb_spec (s_off t + i) (s_off t + Z.min (s_len t) (s_len s))); simpl; try lia.
      rewrite (extends_peek _ _ X) by auto. f_equal. lia. }
    split; [lia|]. split; [|split; intros; [lia|auto]].
    eapply extends_shape; [exact X|exact Sh1|]. intros a p Ha Hp. rewrite P1 by auto.
    rewrite (proj2 (Nat.eqb_neq a (s_arr t))) by lia. reflexivity.
  - exists m, s. split; [reflexivity|]. split; [auto|]. split; [auto|]. split; [lia|]. split; [apply extends_refl|]. split; intros; [auto|lia].
Qed.

Lemma Shrink_ok zero grow m s : wf_slice m s ->
  exists m' s', Vector_Shrink zero grow (m, s) = (Ok tt, (m', s')) /\ wf_slice m' s' /\
    contents m' s' = contents m s /\ extends m m' /\
    (s_cap s = s_len s -> m' = m /\ s' = s) /\
    (s_len s < s_cap s -> (length m <= s_arr s')%nat /\
       s_cap s' = if s_len s =? 0 then 0 else Z.max (s_len s) (grow 0 (s_len s))).
Proof.
  intros Hs. pose proof Hs as (S1 & S2 & S3 & S4). unfold Vector_Shrink. rewrite bind_get_hdr. rewrite Z.gtb_ltb.
  destruct (Z.ltb_spec (s_len s) (s_cap s)) as [L|L].
  - destruct (lit_ok m []) as (E & W & C & X). set (e := mkSlice _ _ _ _) in *.
    rewrite (bind_lift_mem _ _ _ _ _ _ E). unfold append_slice.
    pose proof (extends_wf _ _ _ X Hs) as Hs0.
    assert (Cs : contents (m ++ [[]]) s = contents m s) by (apply extends_contents; auto).
    destruct (append_list_ok zero grow e (contents (m ++ [[]]) s) (m ++ [[]]) W) as (s' & m1 & E1 & W1 & C1 & L1 & F1).
    pose proof (bind_lift_mem (append_slice zero grow e s) (fun v' => set_hdr v') (m ++ [[]]) s s' m1 E1) as B.
    unfold append_slice in B. rewrite B.
    pose proof (zlen_contents _ _ Hs0) as Zs.
    exists m1, s'. split; [reflexivity|]. split; [auto|]. split; [rewrite C1, Cs, C; reflexivity|].
    assert (X1 : extends m m1).
    { simpl in F1. rewrite Zs in F1. change (zlen (@nil T)) with 0 in F1. destruct (Z.leb_spec (s_len s) 0).
      - destruct F1 as (_ & _ & _ & ->). apply extends_write; auto.
      - destruct F1 as (_ & _ & _ & X1). eapply extends_trans; eauto. }
    split; [auto|]. split; [lia|]. intros _.
    revert E1 F1. unfold append_list. rewrite Zs. subst e. simpl. change (zlen (@nil T)) with 0.
    destruct (Z.leb_spec (s_len s) 0), (Z.eqb_spec (s_len s) 0); try lia.
    intros E1 _. unfold alloc in E1. inversion E1. simpl. rewrite app_length. simpl. split; [lia|].
    rewrite !zlen_app, zlen_repeat, Zs. lia.
  - exists m, s. split; [reflexivity|]. split; [auto|]. split; [auto|]. split; [apply extends_refl|]. split; [auto|lia].
Qed.

Lemma Append_ok zero grow x m s : wf_slice m s -> wf_slice m x ->
  exists m' s', Vector_Append zero grow x (m, s) = (Ok tt, (m', s')) /\ wf_slice m' s' /\
    contents m' s' = contents m s ++ contents m x /\ s_len s' = s_len s + s_len x /\
    (if s_len s + s_len x <=? s_cap s
     then s_arr s' = s_arr s /\ s_off s' = s_off s /\ s_cap s' = s_cap s /\
          same_except m m' (s_arr s) (s_off s + s_len s) (s_off s + s_len s + s_len x)
     else s_arr s' = length m /\ extends m m').
Proof.
  intros Hs Hx. pose proof Hs as (S1 & S2 & S3 & S4). unfold Vector_Append. rewrite bind_get_hdr.
  destruct (append_list_ok zero grow s (contents m x) m Hs) as (s' & m1 & E & W & C & L & F).
  rewrite (bind_lift_mem (append_slice zero grow s x) _ m s s' m1 E).
  rewrite (zlen_contents m x Hx) in *.
  exists m1, s'. split; [reflexivity|]. split; [auto|]. split; [auto|]. split; [auto|].
  destruct (Z.leb_spec (s_len s + s_len x) (s_cap s)).
  - destruct F as (F1 & F2 & F3 & ->). do 3 (split; [auto|]); apply same_except_write_at; auto; rewrite ?(zlen_contents m x Hx); lia.
  - destruct F as (F1 & F2 & F3 & F4). auto.
Qed.

Lemma PushBack_ok zero grow (x : T) m s : wf_slice m s ->
  exists m' s', Vector_PushBack zero grow x (m, s) = (Ok tt, (m', s')) /\ wf_slice m' s' /\
    contents m' s' = contents m s ++ [x] /\ s_len s' = s_len s + 1 /\
    (if s_len s + 1 <=? s_cap s
     then s_arr s' = s_arr s /\ s_off s' = s_off s /\ s_cap s' = s_cap s /\
          same_except m m' (s_arr s) (s_off s + s_len s) (s_off s + s_len s + 1)
     else s_arr s' = length m /\ extends m m').
Proof.
  intros Hs. pose proof Hs as (S1 & S2 & S3 & S4). unfold Vector_PushBack. rewrite bind_get_hdr.
  destruct (append_list_ok zero grow s [x] m Hs) as (s' & m1 & E & W & C & L & F).
  rewrite (bind_lift_mem _ _ m s s' m1 E). change (zlen [x]) with 1 in *.
  exists m1, s'. split; [reflexivity|]. split; [auto|]. split; [auto|]. split; [auto|].
  destruct (Z.leb_spec (s_len s + 1) (s_cap s)).
  - destruct F as (F1 & F2 & F3 & ->). do 3 (split; [auto|]); apply same_except_write_at; auto; change (zlen [x]) with 1; lia.
  - destruct F as (F1 & F2 & F3 & F4). auto.
Qed.

(** *** Sequences of calls *)
Definition Rep (l : list T) (c : cell T) : Prop := wf_slice (fst c) (snd c) /\ c_contents c = l.

Lemma observe_eq {S A} (f : A -> obs T) (p : M S A) (s s' : S) o : p s = (o, s') -> observe f p s = (omap f o, s').
Proof. intros H. unfold observe. now rewrite H. Qed.

Lemma remove_step zero grow i j l c :
  Rep l c -> zlen l <= max_int ->
  exists l', remove_spec l i j (fst (observe (fun _ => ONone) (Vector_RemoveRange zero grow i j) c)) l' /\
    Rep l' (snd (observe (fun _ => @ONone T) (Vector_RemoveRange zero grow i j) c)) /\ zlen l' <= zlen l + Z.max 0 (i - j).
Proof.
  intros [W C] Hm. destruct c as [m s]. unfold c_contents in C. simpl in *. subst l.
  pose proof (zlen_contents m s W) as Zl. unfold remove_spec.
  destruct (Z.leb_spec 0 i), (Z.leb_spec i j), (Z.leb_spec j (zlen (contents m s))); simpl.
  1:{ destruct (RemoveRange_ok zero grow i j m s W ltac:(lia) ltac:(lia)) as (m' & s' & E & W' & C' & _).
      rewrite (observe_eq _ _ _ _ _ E). simpl. eexists. split; [split; [reflexivity|reflexivity]|].
      rewrite Zl. split; [split; [exact W'|exact C']|]. rewrite zlen_app, !zlen_zsub; rewrite ?Zl; lia. }
  all: destruct (RemoveRange_panic zero grow i j m s W ltac:(lia)) as (c' & E & F);
       rewrite (observe_eq _ _ _ _ _ E); simpl;
       destruct (Z.leb_spec 0 j), (Z.leb_spec j (s_len s)), (Z.ltb_spec j i), (Z.leb_spec i (s_cap s)); simpl in F; try lia;
       try (subst c'; exists (contents m s); split; [split; [reflexivity|now left]|split; [split; auto|lia]]).
  destruct F as (F1 & F2 & F3). exists (c_contents c'). split; [split; [reflexivity|]|split; [split; auto|]].
  - right. split; [lia|]. split; [lia|]. exists (zsub (cap_contents m s) 0 i).
    assert (Zc : zlen (cap_contents m s) = s_cap s) by (unfold cap_contents; destruct W as (W1 & W2 & W3 & W4); rewrite zlen_zsub; lia).
    split; [rewrite zlen_zsub; lia|]. split; [|now rewrite Zl].
    intros k Hk Hki. destruct (Z_lt_le_dec k 0); [now rewrite !zget_lt0|].
    rewrite zget_zsub by lia. destruct (Z.ltb_spec k (i - 0)); [|lia].
    unfold cap_contents. rewrite zget_zsub; [|destruct W; lia|lia]. rewrite zget_contents by auto.
    destruct (Z.ltb_spec (0 + k) (s_off s + s_cap s - s_off s)), (Z.ltb_spec k (s_len s)); auto; lia.
  - unfold c_contents. rewrite zlen_contents by auto. lia.
Qed.

Lemma shrunk_len zero m m' s s' l' : wf_slice m s -> shrunk zero m m' s s' l' -> Rep l' (m', s').
Proof. intros _ (W & C & _). split; auto. Qed.

Lemma vec_step_ok zero grow o l c :
  Rep l c -> vec_args o -> zlen l + vec_growth o <= max_int ->
  exists l', vec_spec zero l o (fst (vec_step zero grow o c)) l' /\ Rep l' (snd (vec_step zero grow o c)) /\
    zlen l' <= zlen l + vec_growth o.
Proof.
  intros HR Ha Hg. pose proof HR as [W C]. destruct c as [m s]. unfold c_contents in C. simpl in W, C.
  pose proof (zlen_contents m s W) as Zl. pose proof (zlen_nonneg l) as Z0. rewrite C in Zl.
  destruct o as [x|xs|i xs| | | |i|i x|i|i j|i n|p| | | |r|]; cbn [vec_step vec_spec vec_args vec_growth] in *.
  - (* PushBack *) destruct (PushBack_ok zero grow x m s W) as (m' & s' & E & W' & C' & L & _).
    rewrite (observe_eq _ _ _ _ _ E). simpl. exists (l ++ [x]). split; [auto|]. split; [split; auto; unfold c_contents; simpl; congruence|]. rewrite zlen_app. change (zlen [x]) with 1. lia.
  - (* Append *) destruct (lit_ok m xs) as (E0 & W0 & C0 & X0). set (x := mkSlice _ _ _ _) in *.
    destruct (Append_ok zero grow x _ s (extends_wf _ _ _ X0 W) W0) as (m' & s' & E & W' & C' & L & _).
    rewrite C0 in C'. rewrite (extends_contents _ _ _ X0) in C' by apply W. rewrite C in C'.
    rewrite (observe_eq _ _ _ (m', s') (Ok tt)) by (rewrite (bind_lift_mem _ _ _ _ _ _ E0); exact E).
    simpl. exists (l ++ xs). split; [auto|]. split; [split; auto|]. rewrite zlen_app. lia.
  - (* Insert *) destruct (lit_ok m xs) as (E0 & W0 & C0 & X0). set (x := mkSlice _ _ _ _) in *.
    pose proof (extends_wf _ _ _ X0 W) as W1.
    assert (Cs : contents (m ++ [xs]) s = l) by (rewrite (extends_contents _ _ _ X0); auto; apply W).
    assert (Ne : s_arr x <> s_arr s) by (destruct W as (K1 & _); simpl; lia).
    destruct (Z.leb_spec 0 i), (Z.leb_spec i (zlen l)); simpl.
    + destruct (Z_le_gt_dec (s_len s + s_len x) (s_cap s)) as [Q|Q].
      * destruct (Insert_inplace zero i x _ s W1 W0 ltac:(lia) ltac:(simpl; lia) Q) as (m' & ys & E & W' & _ & Zy & C' & Y & _).
        assert (ys = xs).
        { rewrite <- C0. apply zlist_eq_len; [rewrite zlen_contents; auto|]. intros k Hk. rewrite Y by lia.
          rewrite (proj2 (Nat.eqb_neq _ _) Ne). cbn [andb]. rewrite zget_contents_peek by auto.
          destruct (Z.leb_spec 0 k), (Z.ltb_spec k (s_len x)); auto; lia. }
        subst ys. rewrite (observe_eq _ _ _ (m', mkSlice (s_arr s) (s_off s) (s_len s + s_len x) (s_cap s)) (Ok tt)) by (rewrite (bind_lift_mem _ _ _ _ _ _ E0); exact E).
        rewrite Cs in C'.
        eexists. split; [split; reflexivity|]. split; [split; [exact W'|rewrite Zl; exact C']|]. rewrite zlen_ins; lia.
      * destruct (Insert_realloc zero i x _ s W1 W0 ltac:(lia) ltac:(simpl; lia) ltac:(lia)) as (m' & s' & E & W' & C' & _).
        rewrite (observe_eq _ _ _ (m', s') (Ok tt)) by (rewrite (bind_lift_mem _ _ _ _ _ _ E0); exact E).
        rewrite Cs, C0 in C'.
        eexists. split; [split; reflexivity|]. split; [split; [exact W'|rewrite Zl; exact C']|]. rewrite zlen_ins; lia.
    + destruct (Insert_panic zero i x _ s W1 W0 Ha ltac:(lia) ltac:(simpl; lia)) as (m' & E & X').
      rewrite (observe_eq _ _ _ (m', s) Panic) by (rewrite (bind_lift_mem _ _ _ _ _ _ E0); exact E).
      pose proof (zlen_nonneg xs). exists l. split; [auto|]. split; [|lia]. split; [exact (extends_wf _ _ _ X' W1)|].
      unfold c_contents. simpl. rewrite (extends_contents _ _ _ X'); auto; apply W1.
    + destruct (Insert_panic zero i x _ s W1 W0 Ha ltac:(lia) ltac:(simpl; lia)) as (m' & E & X').
      rewrite (observe_eq _ _ _ (m', s) Panic) by (rewrite (bind_lift_mem _ _ _ _ _ _ E0); exact E).
      pose proof (zlen_nonneg xs). exists l. split; [auto|]. split; [|lia]. split; [exact (extends_wf _ _ _ X' W1)|].
      unfold c_contents. simpl. rewrite (extends_contents _ _ _ X'); auto; apply W1.
    + destruct (Insert_panic zero i x _ s W1 W0 Ha ltac:(lia) ltac:(simpl; lia)) as (m' & E & X').
      rewrite (observe_eq _ _ _ (m', s) Panic) by (rewrite (bind_lift_mem _ _ _ _ _ _ E0); exact E).
      pose proof (zlen_nonneg xs). exists l. split; [auto|]. split; [|lia]. split; [exact (extends_wf _ _ _ X' W1)|].
      unfold c_contents. simpl. rewrite (extends_contents _ _ _ X'); auto; apply W1.
  - (* PopBack *) destruct (list_snoc l) as [->|(l' & x & ->)].
    + rewrite (observe_eq _ _ _ _ _ (PopBack_panic zero m s W C)). exists []. split; [left; auto|]. split; [auto|lia].
    + destruct (PopBack_ok zero m s x l' W C) as (m' & s' & E & Sh). rewrite (observe_eq _ _ _ _ _ E). simpl.
      exists l'. split; [right; eauto|]. split; [exact (shrunk_len _ _ _ _ _ _ W Sh)|]. rewrite zlen_snoc. lia.
  - (* TryPopBack *) unfold Vector_TryPopBack, Vector_IsEmpty. destruct (list_snoc l) as [->|(l' & x & ->)].
    + rewrite (observe_eq _ _ _ (m, s) (Ok (zero, false))).
      2:{ unfold bind, get_hdr, ret. simpl. rewrite <- Zl. reflexivity. }
      exists []. split; [left; auto|]. split; [auto|lia].
    + destruct (PopBack_ok zero m s x l' W C) as (m' & s' & E & Sh).
      rewrite (observe_eq _ _ _ (m', s') (Ok (x, true))).
      2:{ unfold bind at 1. unfold bind at 1, get_hdr, ret. cbn [fst snd]. rewrite zlen_snoc in *. pose proof (zlen_nonneg l').
          destruct (Z.eqb_spec (s_len s) 0); [lia|]. rewrite (bind_Ok _ _ _ _ _ E). reflexivity. }
      exists l'. split; [right; simpl; eauto|]. split; [exact (shrunk_len _ _ _ _ _ _ W Sh)|]. rewrite zlen_snoc. lia.
  - (* Back *) exists l. destruct (list_snoc l) as [->|(l' & x & ->)].
    + assert (E : Vector_Back (m, s) = (Panic, (m, s))).
      { unfold Vector_Back. rewrite bind_get_hdr. apply lift_mem_panic, sload_panic; auto. rewrite C. apply zget_lt0. rewrite zlen_nil in *; lia. }
      rewrite (observe_eq _ _ _ _ _ E). split; [auto|]. split; [auto|lia].
    + assert (E : Vector_Back (m, s) = (Ok x, (m, s))).
      { unfold Vector_Back. rewrite bind_get_hdr. apply lift_mem_ok, sload_ok; auto. rewrite C. rewrite zlen_snoc in Zl. replace (s_len s - 1) with (zlen l') by lia. apply (zget_mid l' x []). }
      rewrite (observe_eq _ _ _ _ _ E). split; [split; [auto|right; exists x, l'; auto]|]. split; [auto|lia].
  - (* At *) exists l. destruct (zget l i) as [x|] eqn:G.
    + assert (E : Vector_At i (m, s) = (Ok x, (m, s))).
      { unfold Vector_At. rewrite bind_get_hdr. apply lift_mem_ok, sload_ok; auto. now rewrite C. }
      rewrite (observe_eq _ _ _ _ _ E). split; [auto|]. split; [auto|lia].
    + assert (E : Vector_At i (m, s) = (Panic, (m, s))).
      { unfold Vector_At. rewrite bind_get_hdr. apply lift_mem_panic, sload_panic; auto. now rewrite C. }
      rewrite (observe_eq _ _ _ _ _ E). split; [auto|]. split; [auto|lia].
  - (* Set *) destruct (zget l i) as [y|] eqn:G.
    + pose proof (zget_Some_range _ _ _ G).
      assert (E : Vector_Set i x (m, s) = (Ok tt, (write_at m s 0 (zupd (contents m s) i x), s))).
      { unfold Vector_Set. rewrite bind_get_hdr. apply lift_mem_ok, sstore_ok; auto. lia. }
      rewrite (observe_eq _ _ _ _ _ E). exists (zupd l i x). split; [auto|].
      assert (zlen (zupd (contents m s) i x) = s_len s) by (rewrite zlen_zupd, zlen_contents; auto).
      split; [split; [now apply wf_write_self|]|rewrite zlen_zupd; lia].
      unfold c_contents. simpl. rewrite contents_write_at; auto. now rewrite C.
    + apply zget_None in G.
      assert (E : Vector_Set i x (m, s) = (Panic, (m, s))).
      { unfold Vector_Set. rewrite bind_get_hdr. apply lift_mem_panic, sstore_panic; auto. lia. }
      rewrite (observe_eq _ _ _ _ _ E). exists l. split; [auto|]. split; [auto|lia].
  - (* Remove *) unfold Vector_Remove. destruct (Z.eq_dec i max_int) as [->|N].
    + destruct (remove_step zero grow max_int (wrap64 (max_int + 1)) l (m, s) HR ltac:(lia)) as (l' & Hr & Hrep & Hlen).
      assert (Ew : wrap64 (max_int + 1) = - 2^63) by reflexivity. rewrite Ew in *.
      exists l'. revert Hr. unfold remove_spec.
      destruct (Z.leb_spec max_int (- 2^63)); [unfold max_int in *; lia|]. rewrite andb_false_r. cbn [andb].
      destruct (Z.leb_spec (max_int + 1) (zlen l)); [lia|]. rewrite andb_false_r.
      intros (Hp & [->|Q]); [|unfold max_int in *; lia]. split; [auto|]. split; [auto|lia].
    + rewrite wrap64_id by (unfold is_int, max_int in *; lia).
      destruct (remove_step zero grow i (i + 1) l (m, s) HR ltac:(lia)) as (l' & Hr & Hrep & Hlen).
      exists l'. split; [auto|]. split; [auto|lia].
  - (* RemoveRange *) destruct (remove_step zero grow i j l (m, s) HR ltac:(lia)) as (l' & Hr & Hrep & Hlen). eauto.
  - (* RemoveLength *) unfold Vector_RemoveLength. destruct Ha as [Hi Hn].
    destruct (Z_lt_le_dec max_int (i + n)) as [P|P].
    { pose proof (wrap64_over i n Hi Hn P) as Hw.
      destruct (remove_step zero grow i (wrap64 (i + n)) l (m, s) HR ltac:(lia)) as (l' & Hr & Hrep & Hlen).
      exists l'. revert Hr. unfold remove_spec.
      assert (E1 : (0 <=? i) && (i <=? wrap64 (i + n)) && (wrap64 (i + n) <=? zlen l) = false).
      { destruct (Z.leb_spec 0 i), (Z.leb_spec i (wrap64 (i + n))); simpl; auto; lia. }
      assert (E2 : (0 <=? i) && (i <=? i + n) && (i + n <=? zlen l) = false).
      { destruct (Z.leb_spec (i + n) (zlen l)); [lia|]. now rewrite andb_false_r. }
      rewrite E1, E2. intros (Hp & [->|Q]); [|lia]. split; [auto|]. split; [auto|lia]. }
    destruct (Z_lt_le_dec (i + n) (- 2^63)) as [P2|P2].
    { pose proof (wrap64_under i n Hi Hn P2) as Hw.
      destruct (remove_step zero grow i (wrap64 (i + n)) l (m, s) HR ltac:(lia)) as (l' & Hr & Hrep & Hlen).
      exists l'. assert (i < 0) by (unfold is_int, max_int in *; lia). revert Hr. unfold remove_spec.
      destruct (Z.leb_spec 0 i); [lia|]. cbn [andb]. intros (Hp & [->|Q]); [|lia]. split; [auto|]. split; [auto|lia]. }
    rewrite wrap64_id by (unfold is_int in *; lia).
    destruct (remove_step zero grow i (i + n) l (m, s) HR ltac:(lia)) as (l' & Hr & Hrep & Hlen).
    exists l'. split; [auto|]. split; [auto|lia].
  - (* RemoveIf *) destruct (VRemoveIf_ok zero (fun (u : unit) (y : T) => (p y, u)) tt m s W) as (m' & s' & E & Sh).
    rewrite (observe_eq _ _ _ _ _ E). rewrite reject_filter, C in Sh.
    exists (filter (fun x : T => negb (p x)) l). split; [auto|]. split; [exact (shrunk_len _ _ _ _ _ _ W Sh)|].
    assert (K : forall q : T -> bool, (length (filter q l) <= length l)%nat) by (intros q; clear; induction l; simpl; auto; destruct (q a); simpl; lia).
    specialize (K (fun x : T => negb (p x))). unfold zlen. lia.
  - (* Len *) exists l. split; [split; [|auto]|split; [auto|lia]]. simpl. now rewrite Zl.
  - (* IsEmpty *) exists l. split; [split; [|auto]|split; [auto|lia]]. simpl. now rewrite Zl.
  - (* Clear *) destruct (Clear_ok zero m s W) as (m' & s' & E & Sh). rewrite (observe_eq _ _ _ _ _ E).
    exists []. split; [auto|]. split; [exact (shrunk_len _ _ _ _ _ _ W Sh)|rewrite zlen_nil; lia].
  - (* Reserve *) destruct (Reserve_ok zero r m s W) as (m' & s' & E & W' & C' & _).
    rewrite (observe_eq _ _ _ _ _ E). exists l. split; [auto|]. split; [split; auto; unfold c_contents; simpl; congruence|lia].
  - (* Shrink *) destruct (Shrink_ok zero grow m s W) as (m' & s' & E & W' & C' & _).
    rewrite (observe_eq _ _ _ _ _ E). exists l. split; [auto|]. split; [split; auto; unfold c_contents; simpl; congruence|lia].
Qed.

Lemma vec_growth_nonneg (o : vec_op T) : 0 <= vec_growth o.
Proof. destruct o; simpl; try pose proof (zlen_nonneg xs); lia. Qed.
Lemma total_growth_nonneg (ops : list (vec_op T)) : 0 <= total_growth ops.
Proof. induction ops as [|o ops IH]; simpl; [lia|]. pose proof (vec_growth_nonneg o). lia. Qed.

Lemma vec_run_ok zero grow ops : forall l c,
  Rep l c -> Forall vec_args ops -> zlen l + total_growth ops <= max_int ->
  exists l', accepts (vec_spec zero) l ops (fst (run (vec_step zero grow) ops c)) l' /\
    Rep l' (snd (run (vec_step zero grow) ops c)).
Proof.
  induction ops as [|o ops IH]; intros l c HR Ha Hg.
  - exists l. split; [constructor|auto].
  - inversion Ha as [|? ? Ho Hops]; subst. cbn [total_growth] in Hg. pose proof (total_growth_nonneg ops).
    destruct (vec_step_ok zero grow o l c HR Ho ltac:(lia)) as (l1 & Hs & HR1 & Hl1).
    destruct (IH l1 _ HR1 Hops ltac:(lia)) as (l2 & Hacc & HR2).
    exists l2. cbn [run]. destruct (vec_step zero grow o c) as [r c1]. cbn [fst snd] in *.
    destruct (run (vec_step zero grow) ops c1) as [rs c2]. cbn [fst snd] in *. split; auto. econstructor; eauto.
Qed.
Lemma remove_spec_det (l : list T) i j r1 r2 l1 l2 : i <= j ->
  remove_spec l i j r1 l1 -> remove_spec l i j r2 l2 -> r1 = r2 /\ l1 = l2.
Proof.
  intros Hij. unfold remove_spec. destruct (_ && _ && _); [intros [-> ->] [-> ->]; auto|].
  intros [-> [->|H1]] [-> [->|H2]]; auto; lia.
Qed.
Lemma vec_spec_det1 zero (o : vec_op T) l r1 r2 l1 l2 : vec_not_reversed o ->
  vec_spec zero l o r1 l1 -> vec_spec zero l o r2 l2 -> r1 = r2 /\ l1 = l2.
Proof.
  intros Hn. destruct o; cbn [vec_spec vec_not_reversed] in *;
    try (intros [-> ->] [-> ->]; auto; fail);
    try (apply remove_spec_det; lia).
  - destruct (_ && _); intros [-> ->] [-> ->]; auto.
  - intros [(E1 & -> & ->)|(x & E1 & ->)] [(E2 & -> & ->)|(y & E2 & ->)]; auto; subst l; try (destruct l1; discriminate); try (destruct l2; discriminate).
    apply app_inj_tail in E2 as [-> ->]. auto.
  - intros [(E1 & -> & ->)|(x & E1 & ->)] [(E2 & -> & ->)|(y & E2 & ->)]; auto; subst l; try (destruct l1; discriminate); try (destruct l2; discriminate).
    apply app_inj_tail in E2 as [-> ->]. auto.
  - intros (-> & [(E1 & ->)|(x & p & E1 & ->)]) (-> & [(E2 & ->)|(y & q & E2 & ->)]); auto; subst l; try (destruct p; discriminate); try (destruct q; discriminate).
    apply app_inj_tail in E2 as [_ ->]. auto.
  - destruct (zget l i); intros [-> ->] [-> ->]; auto.
Qed.
Lemma vec_spec_det zero (ops : list (vec_op T)) : forall l rs1 rs2 l1 l2, Forall vec_not_reversed ops ->
  accepts (vec_spec zero) l ops rs1 l1 -> accepts (vec_spec zero) l ops rs2 l2 -> rs1 = rs2 /\ l1 = l2.
Proof.
  induction ops as [|o ops IH]; intros l rs1 rs2 l1 l2 Hn A1 A2.
  - apply accepts_nil_inv in A1 as [-> ->]. apply accepts_nil_inv in A2 as [-> ->]. auto.
  - inversion Hn as [|? ? Ho Hops]; subst. apply accepts_cons_inv in A1 as (r1 & a1 & rs1' & -> & S1 & A1).
    apply accepts_cons_inv in A2 as (r2 & a2 & rs2' & -> & S2 & A2).
    destruct (vec_spec_det1 zero o l r1 r2 a1 a2 Ho S1 S2) as [-> ->].
    destruct (IH _ _ _ _ _ Hops A1 A2) as [-> ->]. auto.
Qed.

Lemma Insert_ok zero i x m s :
  wf_slice m s -> wf_slice m x -> 0 <= i <= s_len s -> s_len s + s_len x <= max_int ->
  (s_arr x <> s_arr s \/ s_off x <= s_off s + i \/ s_off s + s_len s + s_len x <= s_off x) ->
  exists m' s', Vector_Insert zero i x (m, s) = (Ok tt, (m', s')) /\ wf_slice m' s' /\
    contents m' s' = zsub (contents m s) 0 i ++ contents m x ++ zsub (contents m s) i (s_len s) /\
    if s_len s + s_len x <=? s_cap s
    then s_arr s' = s_arr s /\ s_off s' = s_off s /\ s_cap s' = s_cap s /\
         same_except m m' (s_arr s) (s_off s + i) (s_off s + s_len s + s_len x)
    else s_arr s' = length m /\ extends m m'.
Proof.
  intros Hs Hx Hi Hm Hd. destruct (Z.leb_spec (s_len s + s_len x) (s_cap s)) as [L|L].
  - destruct (Insert_inplace zero i x m s Hs Hx Hi Hm L) as (m' & ys & E & W & _ & Zy & C & Y & F).
    exists m', (mkSlice (s_arr s) (s_off s) (s_len s + s_len x) (s_cap s)). split; [exact E|]. split; [exact W|]. split; [|simpl; auto].
    rewrite C. do 2 f_equal. apply zlist_eq_len; [rewrite zlen_contents; auto|]. intros k Hk. rewrite Y by lia.
    rewrite zget_contents_peek by auto. destruct (Z.leb_spec 0 k), (Z.ltb_spec k (s_len x)); try lia. cbn [andb].
    destruct (Nat.eqb_spec (s_arr x) (s_arr s)); cbn [andb]; auto.
    destruct (Z.leb_spec (s_off s + i + s_len x) (s_off x + k)), (Z.ltb_spec (s_off x + k) (s_off s + s_len s + s_len x)); cbn [andb]; auto.
    destruct Hd as [Hd|Hd]; [contradiction|]. pose proof Hs as (K1 & K2 & K3 & K4). lia.
  - destruct (Insert_realloc zero i x m s Hs Hx Hi Hm L) as (m' & s' & E & W & C & A & _ & X).
    exists m', s'. auto.
Qed.

Lemma Insert_self_actual zero i a b m s :
  wf_slice m s -> 0 <= i <= s_len s -> 0 <= a <= b -> b <= s_len s -> s_len s + (b - a) <= max_int ->
  s_len s + (b - a) <= s_cap s ->
  exists x m' s' xs, reslice s a b = Ok x /\ Vector_Insert zero i x (m, s) = (Ok tt, (m', s')) /\
    contents m' s' = zsub (contents m s) 0 i ++ xs ++ zsub (contents m s) i (s_len s) /\
    zlen xs = b - a /\
    forall k, 0 <= k < b - a ->
      zget xs k = zget (contents m s) (if a + k <? i + (b - a) then a + k else a + k - (b - a)).
Proof.
  intros Hs Hi Ha Hb Hm Hc. pose proof Hs as (K1 & K2 & K3 & K4).
  set (x := mkSlice (s_arr s) (s_off s + a) (b - a) (s_cap s - a)).
  assert (Hx : wf_slice m x) by (apply wf_reslice; auto; lia).
  destruct (Insert_inplace zero i x m s Hs Hx Hi ltac:(simpl; lia) ltac:(simpl; lia)) as (m' & ys & E & W & _ & Zy & C & Y & F).
  exists x, m', (mkSlice (s_arr s) (s_off s) (s_len s + s_len x) (s_cap s)), ys. split; [apply reslice_ok; lia|].
  split; [exact E|]. split; [exact C|]. split; [exact Zy|]. intros k Hk. rewrite Y by (simpl; lia). simpl. rewrite Nat.eqb_refl. cbn [andb].
  rewrite zget_contents_peek by auto.
  destruct (Z.ltb_spec (a + k) (i + (b - a))).
  - destruct (Z.leb_spec (s_off s + i + (b - a)) (s_off s + a + k)); [lia|]. cbn [andb].
    destruct (Z.leb_spec 0 (a + k)), (Z.ltb_spec (a + k) (s_len s)); try lia. cbn [andb]. f_equal. lia.
  - destruct (Z.leb_spec (s_off s + i + (b - a)) (s_off s + a + k)), (Z.ltb_spec (s_off s + a + k) (s_off s + s_len s + (b - a))); try lia. cbn [andb].
    destruct (Z.leb_spec 0 (a + k - (b - a))), (Z.ltb_spec (a + k - (b - a)) (s_len s)); try lia. cbn [andb]. f_equal. lia.
Qed.

Lemma Insert_self_right zero i a b m s :
  wf_slice m s -> 0 <= i <= s_len s -> 0 <= a <= b -> b <= s_len s -> s_len s + (b - a) <= max_int ->
  (a <= i \/ s_cap s < s_len s + (b - a)) ->
  exists x m' s', reslice s a b = Ok x /\ Vector_Insert zero i x (m, s) = (Ok tt, (m', s')) /\
    contents m' s' = zsub (contents m s) 0 i ++ zsub (contents m s) a b ++ zsub (contents m s) i (s_len s).
Proof.
  intros Hs Hi Ha Hb Hm Hd. pose proof Hs as (K1 & K2 & K3 & K4).
  set (x := mkSlice (s_arr s) (s_off s + a) (b - a) (s_cap s - a)).
  assert (Hx : wf_slice m x) by (apply wf_reslice; auto; lia).
  assert (Cx : contents m x = zsub (contents m s) a b) by (apply contents_reslice; auto; lia).
  exists x. destruct Hd as [Hd|Hd].
  - destruct (Insert_ok zero i x m s Hs Hx Hi ltac:(simpl; lia) ltac:(simpl; lia)) as (m' & s' & E & _ & C & _).
    exists m', s'. split; [apply reslice_ok; lia|]. split; auto. now rewrite C, Cx.
  - destruct (Insert_realloc zero i x m s Hs Hx Hi ltac:(simpl; lia) ltac:(simpl; lia)) as (m' & s' & E & _ & C & _).
    exists m', s'. split; [apply reslice_ok; lia|]. split; auto. now rewrite C, Cx.
Qed.

Lemma pushes_no_realloc zero grow xs : forall m s, wf_slice m s -> s_len s + zlen xs <= s_cap s ->
  let c := snd (run (vec_step zero grow) (map VPushBack xs) (m, s)) in
  s_arr (snd c) = s_arr s /\ s_off (snd c) = s_off s /\ s_cap (snd c) = s_cap s /\ c_contents c = contents m s ++ xs.
Proof.
  induction xs as [|x xs IH]; intros m s Hs Hl.
  - simpl. unfold c_contents. simpl. rewrite app_nil_r. auto.
  - rewrite zlen_cons in Hl. pose proof (zlen_nonneg xs).
    destruct (PushBack_ok zero grow x m s Hs) as (m' & s' & E & W & C & L & F).
    destruct (Z.leb_spec (s_len s + 1) (s_cap s)); [|lia]. destruct F as (F1 & F2 & F3 & _).
    cbn [map run vec_step]. rewrite (observe_eq _ _ _ _ _ E).
    specialize (IH m' s' W ltac:(lia)). cbv zeta in IH.
    destruct (run (vec_step zero grow) (map VPushBack xs) (m', s')) as [rs c2]. cbn [snd] in *.
    destruct IH as (I1 & I2 & I3 & I4). rewrite I1, I2, I3, I4, C, <- app_assoc. auto.
Qed.
Lemma Reserve_push zero grow l xs m s : wf_slice m s ->
  exists m' s', Vector_Reserve zero l (m, s) = (Ok tt, (m', s')) /\
  (s_len s + zlen xs <= l ->
   let c := snd (run (vec_step zero grow) (map VPushBack xs) (m', s')) in
   s_arr (snd c) = s_arr s' /\ s_off (snd c) = s_off s' /\ s_cap (snd c) = s_cap s' /\
   c_contents c = contents m s ++ xs).
Proof.
  intros Hs. destruct (Reserve_ok zero l m s Hs) as (m' & s' & E & W & C & Cp & _).
  exists m', s'. split; [auto|]. intros Hl. rewrite <- C. apply pushes_no_realloc; auto.
  pose proof (zlen_contents m' s' W) as Z1. rewrite C, (zlen_contents m s Hs) in Z1. lia.
Qed.

Lemma vi_write_ok m s i (x : T) : wf_slice m s -> 0 <= i < s_len s ->
  exists m', vi_write (mkVIt s i) x m = (Ok tt, m') /\ contents m' s = zupd (contents m s) i x /\
    vi_Value (mkVIt s i) m' = (Ok x, m') /\ same_except m m' (s_arr s) (s_off s + i) (s_off s + i + 1).
Proof.
  intros Hs Hi. pose proof Hs as (K1 & K2 & K3 & K4). pose proof (zlen_contents m s Hs) as Z1.
  assert (Zu : zlen (zupd (contents m s) i x) = s_len s) by (rewrite zlen_zupd; auto).
  eexists. split; [apply sstore_ok; auto|].
  assert (C : contents (write_at m s 0 (zupd (contents m s) i x)) s = zupd (contents m s) i x) by (apply contents_write_at; auto).
  split; [exact C|]. split.
  - unfold vi_Value. simpl. apply sload_ok; [now apply wf_write_self|]. rewrite C. apply zget_zupd_eq. lia.
  - cbn [vi_v vi_i]. apply same_except_peek; [apply mshape_write; auto; rewrite ?Zu; lia|].
    intros b p Hp Ho. rewrite peek_write by (auto; rewrite ?Zu; lia). rewrite Zu.
    destruct (Nat.eqb_spec b (s_arr s)) as [->|N]; cbn [andb]; auto.
    destruct (Z.leb_spec (s_off s + 0) p), (Z.ltb_spec p (s_off s + 0 + s_len s)); cbn [andb]; auto.
    rewrite zget_zupd_ne by (destruct Ho as [Ho|Ho]; [congruence|lia]).
    rewrite zget_contents_peek by auto. destruct (Z.leb_spec 0 (p - (s_off s + 0))), (Z.ltb_spec (p - (s_off s + 0)) (s_len s)); cbn [andb]; try lia.
    f_equal. lia.
Qed.
End Vec.
