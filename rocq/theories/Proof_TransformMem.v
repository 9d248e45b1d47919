From Verif Require Import BaseLemmas Spec Proof_Mem Model_Transform Proof_Transform.

Section TM.
Context {T : Type}.
Implicit Types (m : mem T) (a b r : slice).

Lemma inplace {A} m s (p : W T A) v w' :
  wf_slice m s -> p (contents m s) = (Ok v, w') -> length w' = length (contents m s) ->
  exists m', on_slice s p m = (Ok v, m') /\ wf_slice m' s /\ contents m' s = w' /\
    same_except m m' (s_arr s) (s_off s) (s_off s + s_len s).
Proof.
  intros Hwf Hp Hl. pose proof (zlen_contents m s Hwf) as Hz.
  assert (Hw : zlen w' = s_len s) by (unfold zlen in *; lia).
  exists (write_at m s 0 w'). split; [now apply on_slice_start|].
  split; [now apply wf_write_self|]. split; [now apply contents_write_at|now apply same_except_write].
Qed.

Lemma map_st_length {R St} (op : St -> T -> R * St) l : forall st, length (fst (map_st op st l)) = length l.
Proof.
  induction l as [|x l IH]; intros st; [reflexivity|]. simpl. destruct (op st x) as [y st1].
  specialize (IH st1). destruct (map_st op st1 l). simpl in *. auto.
Qed.
Lemma gen_list_length {St} (gen : St -> T * St) n : forall st, length (fst (gen_list gen n st)) = n.
Proof.
  induction n as [|n IH]; intros st; [reflexivity|]. simpl. destruct (gen st) as [y st1].
  specialize (IH st1). destruct (gen_list gen n st1). simpl in *. auto.
Qed.
Lemma reject_st_length {St} (cond : St -> T -> bool * St) l : forall st, (length (fst (reject_st cond st l)) <= length l)%nat.
Proof.
  induction l as [|x l IH]; intros st; [simpl; lia|]. simpl. destruct (cond st x) as [c st1].
  specialize (IH st1). destruct (reject_st cond st1 l). destruct c; simpl in *; lia.
Qed.
Lemma drop_repeats_after_length eqb l : forall p : T, (length (drop_repeats_after eqb p l) <= length l)%nat.
Proof.
  induction l as [|x l IH]; intros p; simpl; [lia|]. specialize (IH x). destruct (eqb x p); simpl; lia.
Qed.

Lemma compact_len (k l : list T) : (length k <= length l)%nat -> length (k ++ skipn (length k) l) = length l.
Proof. intros. rewrite app_length, skipn_length. lia. Qed.

(** In-place compaction lifted to memory. *)
Lemma compact_mem m a (k : list T) :
  wf_slice m a -> (length k <= length (contents m a))%nat ->
  let m' := write_at m a 0 (k ++ skipn (length k) (contents m a)) in
  let r := mkSlice (s_arr a) (s_off a) (zlen k) (s_cap a) in
  reslice a 0 (zlen k) = Ok r /\ wf_slice m' r /\ contents m' r = k /\
  same_except m m' (s_arr a) (s_off a) (s_off a + zlen k) /\
  zlen (nth (s_arr a) m' []) = zlen (nth (s_arr a) m []).
Proof.
  intros Hwf Hk. pose proof Hwf as (H1 & H2 & H3 & H4). pose proof (zlen_contents m a Hwf) as Hz.
  pose proof (compact_len k (contents m a) Hk) as Hl.
  assert (Hw : zlen (k ++ skipn (length k) (contents m a)) = s_len a) by (unfold zlen in *; lia).
  assert (Hk' : 0 <= zlen k <= s_len a) by (unfold zlen in *; lia).
  cbv zeta. split; [apply reslice_prefix; lia|].
  split; [apply wf_prefix; [now apply wf_write_self|lia]|].
  split.
  - rewrite contents_sub by (auto; lia). unfold zsub. rewrite Z.sub_0_r.
    change (Z.to_nat 0) with O; cbn [skipn]. unfold zlen. rewrite Nat2Z.id, firstn_app, Nat.sub_diag, firstn_all. simpl. apply app_nil_r.
  - destruct (same_except_write m a _ Hwf Hw) as (S1 & S2 & S3).
    split; [|symmetry; apply S3]. split; [exact S1|split; [|exact S3]].
    intros i Hi Ho. destruct (Z_lt_dec i (s_off a + s_len a)) as [L|L]; [|apply S2; auto; lia].
    destruct (Z_lt_dec i (s_off a)); [apply S2; auto; lia|].
    assert (E : forall (q : mem T), wf_slice q a -> zget (nth (s_arr a) q []) i = zget (contents q a) (i - s_off a)).
    { intros q Hq. rewrite zget_contents by (auto; lia). unfold arr_of.
      destruct (Z.ltb_spec (i - s_off a) (s_len a)); [f_equal; lia|lia]. }
    rewrite !E by (auto using wf_write_self). rewrite contents_write_at by auto.
    rewrite zget_app_r by lia. rewrite !zget_ge0 by lia. rewrite nth_error_skipn.
    f_equal. unfold zlen in *. lia.
Qed.

Lemma RemoveIf_ok {St} (cond : St -> T -> bool * St) st m a :
  wf_slice m a ->
  let p := reject_st cond st (contents m a) in
  exists r m', RemoveIf a cond st m = (Ok (r, snd p), m') /\ wf_slice m' r /\ contents m' r = fst p /\
    s_arr r = s_arr a /\ s_off r = s_off a /\ s_cap r = s_cap a /\
    same_except m m' (s_arr a) (s_off a) (s_off a + zlen (fst p)).
Proof.
  intros Hwf p. pose proof (reject_st_length cond (contents m a) st) as Hk. fold p in Hk.
  destruct (compact_mem m a (fst p) Hwf Hk) as (R1 & R2 & R3 & R4 & _).
  eexists _, _. split.
  - unfold RemoveIf. pose proof (RemoveIf_window cond st (contents m a)) as Hw. cbv zeta in Hw. fold p in Hw.
    rewrite (bind_Ok _ _ _ _ _ (on_slice_start m a _ _ _ Hwf Hw)).
    cbn [fst snd]. unfold lift_o at 1. unfold bind at 1. rewrite R1. reflexivity.
  - do 5 (split; [auto|]). exact R4.
Qed.

Lemma Remove_ok eqb (x : T) m a :
  wf_slice m a ->
  let k := filter (fun v => negb (eqb v x)) (contents m a) in
  exists r m', Remove eqb a x m = (Ok r, m') /\ wf_slice m' r /\ contents m' r = k /\
    s_arr r = s_arr a /\ s_off r = s_off a /\ s_cap r = s_cap a /\
    same_except m m' (s_arr a) (s_off a) (s_off a + zlen k).
Proof.
  intros Hwf k.
  assert (Hk : (length k <= length (contents m a))%nat).
  { unfold k. clear. induction (contents m a) as [|y l IH]; simpl; [lia|]. destruct (negb (eqb y x)); simpl; lia. }
  destruct (compact_mem m a k Hwf Hk) as (R1 & R2 & R3 & R4 & _).
  eexists _, _. split.
  - unfold Remove. pose proof (Remove_window eqb x (contents m a)) as Hw. cbv zeta in Hw. fold k in Hw.
    rewrite (bind_Ok _ _ _ _ _ (on_slice_start m a _ _ _ Hwf Hw)).
    unfold lift_o. rewrite R1. reflexivity.
  - do 5 (split; [auto|]). exact R4.
Qed.

Lemma Unique_ok eqb (PE : partial_equiv eqb) m a :
  wf_slice m a ->
  let k := drop_repeats eqb (contents m a) in
  exists r m', Unique eqb a m = (Ok r, m') /\ wf_slice m' r /\ contents m' r = k /\
    s_arr r = s_arr a /\ s_off r = s_off a /\ s_cap r = s_cap a /\
    same_except m m' (s_arr a) (s_off a) (s_off a + zlen k).
Proof.
  intros Hwf k. unfold Unique. pose proof Hwf as (H1 & H2 & H3 & H4). pose proof (zlen_contents m a Hwf) as Hz.
  destruct (Z.eqb_spec (s_len a) 0) as [E|E].
  - eexists a, m. split; [reflexivity|]. pose proof (contents_empty m a Hwf E) as Hc.
    split; [auto|]. split; [unfold k; now rewrite Hc|]. do 3 (split; [auto|]). apply same_except_refl.
  - destruct (contents m a) as [|x rest] eqn:Ec; [change (zlen (@nil T)) with 0 in Hz; lia|].
    assert (Hk : (length k <= length (contents m a))%nat).
    { unfold k. rewrite Ec. simpl. pose proof (drop_repeats_after_length eqb rest x). lia. }
    destruct (compact_mem m a k Hwf Hk) as (R1 & R2 & R3 & R4 & _).
    assert (Hx : zget (contents m a) 0 = Some x) by now rewrite Ec.
    rewrite (bind_Ok _ _ _ _ _ (sload_ok m a 0 x Hwf Hx)).
    rewrite zlen_cons in Hz. replace (Z.to_nat (s_len a - 1)) with (length rest) by (unfold zlen in Hz; lia).
    assert (Hw : Unique_loop eqb (length rest) 1 1 x (contents m a) = (Ok (zlen k), k ++ skipn (length k) (contents m a))).
    { pose proof (Unique_loop_spec eqb (contents m a) PE rest [x] [x] x x) as L.
      change (zlen [x]) with 1 in L.
      replace ([x] ++ skipn (length [x]) (contents m a)) with (contents m a) in L by now rewrite Ec.
      rewrite L; auto; now rewrite Ec. }
    eexists _, _. split.
    + rewrite (bind_Ok _ _ _ _ _ (on_slice_start m a _ _ _ Hwf Hw)). unfold lift_o. rewrite R1. reflexivity.
    + do 5 (split; [auto|]). exact R4.
Qed.

(** *** Building a result in fresh storage *)
Definition fresh m0 m r : Prop := extends m0 m /\ wf_slice m r /\ fresh_storage m0 r.

Lemma append_fresh zero grow m0 m r (x : T) :
  fresh m0 m r ->
  exists r' m', append_list zero grow r [x] m = (Ok r', m') /\ fresh m0 m' r' /\
    contents m' r' = contents m r ++ [x] /\ s_len r' = s_len r + 1 /\ (length m0 <= s_arr r')%nat.
Proof.
  intros (He & Hwf & Hf). pose proof Hwf as (H1 & H2 & H3 & H4).
  destruct (append_list_ok zero grow r [x] m Hwf) as (r' & m' & Ha & Hwf' & Hc & Hl & Hfr).
  exists r', m'. change (zlen [x]) with 1 in *. destruct (Z.leb_spec (s_len r + 1) (s_cap r)) as [L|L].
  - destruct Hfr as (F1 & F2 & F3 & F4). destruct Hf as [Hf|Hf]; [|lia].
    split; [auto|]. split; [|rewrite F1; auto]. split; [subst m'; now apply extends_write|].
    split; [auto|]. left. now rewrite F1.
  - destruct Hfr as (F1 & F2 & F3 & F4). pose proof He as [He1 _].
    split; [auto|]. split; [|rewrite F1; auto]. split; [eapply extends_trans; eauto|].
    split; [auto|]. left. rewrite F1. auto.
Qed.

Lemma fresh_make zero m n c :
  0 <= n <= c -> exists r m', make_slice zero n c m = (Ok r, m') /\ fresh m m' r /\
     contents m' r = repeat zero (Z.to_nat n) /\ s_len r = n /\ s_cap r = c /\ s_arr r = length m.
Proof.
  intros H. destruct (make_slice zero n c m) as [o m'] eqn:E. pose proof E as E'.
  unfold make_slice in E'. destruct (Z.leb_spec 0 n), (Z.leb_spec n c); simpl in E'; try lia.
  destruct o as [r| |]; try discriminate. destruct (wf_make zero m n c r m' E) as (W1 & W2 & W3 & W4 & W5 & W6 & W7).
  exists r, m'. split; [auto|]. split; [|auto]. split; [auto|]. split; [auto|]. left. lia.
Qed.

Lemma fresh_sload m0 m r a i (x : T) :
  fresh m0 m r -> wf_slice m0 a -> zget (contents m0 a) i = Some x -> sload a i m = (Ok x, m).
Proof.
  intros (He & _) Hwf Hx. apply sload_ok; [eapply extends_wf; eauto|].
  rewrite (extends_contents m0 m) by (auto; apply Hwf). auto.
Qed.

Lemma RemoveIfCopy_loop_ok zero grow {St} (cond : St -> T -> bool * St) m0 a (Ha : wf_slice m0 a) rest : forall done m r st,
  contents m0 a = done ++ rest -> fresh m0 m r ->
  exists r' m', RemoveIfCopy_loop zero grow a cond (length rest) (zlen done) r st m =
      (Ok (r', snd (reject_st cond st rest)), m') /\ fresh m0 m' r' /\
      contents m' r' = contents m r ++ fst (reject_st cond st rest).
Proof.
  induction rest as [|x rest IH]; intros done m r st Hc Hf.
  - exists r, m. simpl. rewrite app_nil_r. auto.
  - cbn [length RemoveIfCopy_loop]. assert (Hx : zget (contents m0 a) (zlen done) = Some x) by (rewrite Hc; apply zget_mid).
    rewrite (bind_Ok _ _ _ _ _ (fresh_sload m0 m r a _ x Hf Ha Hx)). simpl reject_st. destruct (cond st x) as [c st1].
    assert (Hc' : contents m0 a = (done ++ [x]) ++ rest) by (rewrite Hc; apply snoc_assoc).
    destruct c; cbn [negb].
    + destruct (IH _ m r st1 Hc' Hf) as (r' & m' & E & F & G). rewrite zlen_snoc in E.
      exists r', m'. destruct (reject_st cond st1 rest). auto.
    + destruct (append_fresh zero grow m0 m r x Hf) as (r1 & m1 & E1 & F1 & C1 & _).
      rewrite (bind_Ok _ _ _ _ _ E1).
      destruct (IH _ m1 r1 st1 Hc' F1) as (r' & m' & E & F & G). rewrite zlen_snoc in E.
      exists r', m'. destruct (reject_st cond st1 rest). simpl in *. rewrite G, C1, <- app_assoc. auto.
Qed.

Lemma len_contents m a : wf_slice m a -> Z.to_nat (s_len a) = length (contents m a).
Proof. intros H. pose proof (zlen_contents m a H). unfold zlen in *. lia. Qed.

Lemma RemoveIfCopy_ok zero grow {St} (cond : St -> T -> bool * St) st m a :
  wf_slice m a ->
  let p := reject_st cond st (contents m a) in
  exists r m', RemoveIfCopy zero grow a cond st m = (Ok (r, snd p), m') /\ wf_slice m' r /\ contents m' r = fst p /\
    fresh_storage m r /\ extends m m'.
Proof.
  intros Hwf p. unfold RemoveIfCopy. pose proof Hwf as (H1 & H2 & H3 & H4).
  destruct (fresh_make zero m 0 (s_len a)) as (r0 & m0 & E & F & C & _); [lia|].
  rewrite (bind_Ok _ _ _ _ _ E). rewrite (len_contents m a Hwf).
  destruct (RemoveIfCopy_loop_ok zero grow cond m a Hwf (contents m a) [] m0 r0 st eq_refl F) as (r & m' & E' & (F1 & F2 & F3) & G).
  exists r, m'. split; [exact E'|]. split; [auto|]. split; [|auto]. rewrite G, C. reflexivity.
Qed.

Lemma RemoveCopy_loop_RemoveIfCopy zero grow eqb (x : T) a n : forall i r m,
  RemoveCopy_loop zero grow eqb a x n i r m =
  (let '(o, m') := RemoveIfCopy_loop zero grow a (fun (s : unit) v => (eqb v x, s)) n i r tt m in (omap fst o, m')).
Proof.
  induction n as [|n IH]; intros; [reflexivity|].
  cbn [RemoveCopy_loop RemoveIfCopy_loop]. unfold bind.
  destruct (sload a i m) as [[v| |] m1]; auto. destruct (eqb v x); simpl; [apply IH|].
  destruct (append_list zero grow r [v] m1) as [[r'| |] m2]; auto.
Qed.

Lemma RemoveCopy_ok zero grow eqb (x : T) m a :
  wf_slice m a ->
  exists r m', RemoveCopy zero grow eqb a x m = (Ok r, m') /\ wf_slice m' r /\
    contents m' r = filter (fun v => negb (eqb v x)) (contents m a) /\
    fresh_storage m r /\ extends m m'.
Proof.
  intros Hwf.
  destruct (RemoveIfCopy_ok zero grow (fun (s : unit) v => (eqb v x, s)) tt m a Hwf) as (r & m' & E & W & C & F & X).
  exists r, m'. split.
  - unfold RemoveIfCopy in E. unfold RemoveCopy. unfold bind in *. destruct (make_slice zero 0 (s_len a) m) as [[r0| |] m0]; try discriminate.
    rewrite RemoveCopy_loop_RemoveIfCopy, E. reflexivity.
  - split; [auto|]. split; [|auto]. rewrite C. apply reject_filter.
Qed.

Lemma ReverseCopy_loop_ok zero grow m0 a (Ha : wf_slice m0 a) : forall done rest m r,
  contents m0 a = done ++ rest -> fresh m0 m r ->
  exists r' m', ReverseCopy_loop zero grow a (length done) (zlen done - 1) r m = (Ok r', m') /\ fresh m0 m' r' /\
      contents m' r' = contents m r ++ rev done.
Proof.
  intros done. induction done as [|x done IH] using rev_ind; intros rest m r Hc Hf.
  - exists r, m. simpl. rewrite app_nil_r. auto.
  - rewrite app_length, Nat.add_comm. cbn [length Nat.add ReverseCopy_loop]. rewrite zlen_snoc.
    pose proof (zlen_nonneg done). destruct (Z.geb_spec (zlen done + 1 - 1) 0); [|lia].
    replace (zlen done + 1 - 1) with (zlen done) by lia.
    rewrite <- app_assoc in Hc. assert (Hx : zget (contents m0 a) (zlen done) = Some x) by (rewrite Hc; apply zget_mid).
    rewrite (bind_Ok _ _ _ _ _ (fresh_sload m0 m r a _ x Hf Ha Hx)).
    destruct (append_fresh zero grow m0 m r x Hf) as (r1 & m1 & E1 & F1 & C1 & _).
    rewrite (bind_Ok _ _ _ _ _ E1).
    destruct (IH _ m1 r1 Hc F1) as (r' & m' & E & F & G).
    exists r', m'. rewrite rev_app_distr. simpl. rewrite G, C1, <- app_assoc. auto.
Qed.

Lemma ReverseCopy_ok zero grow m a :
  wf_slice m a ->
  exists r m', ReverseCopy zero grow a m = (Ok r, m') /\ wf_slice m' r /\
    contents m' r = rev (contents m a) /\ fresh_storage m r /\ extends m m'.
Proof.
  intros Hwf. unfold ReverseCopy. pose proof Hwf as (H1 & H2 & H3 & H4).
  destruct (fresh_make zero m 0 (s_len a)) as (r0 & m0 & E & F & C & _); [lia|].
  rewrite (bind_Ok _ _ _ _ _ E). rewrite (len_contents m a Hwf).
  rewrite <- (zlen_contents m a Hwf).
  destruct (ReverseCopy_loop_ok zero grow m a Hwf (contents m a) [] m0 r0) as (r & m' & E' & (F1 & F2 & F3) & G); auto.
  { now rewrite app_nil_r. }
  exists r, m'. split; [exact E'|]. split; [auto|]. split; [|auto]. rewrite G, C. reflexivity.
Qed.

Lemma UniqueCopy_loop_ok zero grow eqb (PE : partial_equiv eqb) m0 a (Ha : wf_slice m0 a) rest :
  forall done m r c prev lastin,
  contents m0 a = done ++ rest -> fresh m0 m r -> contents m r = c ++ [prev] ->
  (eqb lastin prev = true \/ lastin = prev) ->
  exists r' m', UniqueCopy_loop zero grow eqb a (length rest) (zlen done) r m = (Ok r', m') /\ fresh m0 m' r' /\
      contents m' r' = contents m r ++ drop_repeats_after eqb lastin rest.
Proof.
  pose proof PE as [Hsym Htr].
  induction rest as [|x rest IH]; intros done m r c prev lastin Hc Hf Hr Hp.
  - exists r, m. simpl. rewrite app_nil_r. auto.
  - cbn [length UniqueCopy_loop]. assert (Hx : zget (contents m0 a) (zlen done) = Some x) by (rewrite Hc; apply zget_mid).
    rewrite (bind_Ok _ _ _ _ _ (fresh_sload m0 m r a _ x Hf Ha Hx)).
    pose proof Hf as (_ & Hwr & _). pose proof (zlen_contents m r Hwr) as Hz. rewrite Hr, zlen_snoc in Hz.
    assert (Hdup : (if s_len r >? 0 then l <- sload r (s_len r - 1) ;; ret (eqb l x) else ret false) m = (Ok (eqb prev x), m)).
    { pose proof (zlen_nonneg c). destruct (Z.gtb_spec (s_len r) 0); [|lia].
      assert (Hl : zget (contents m r) (s_len r - 1) = Some prev).
      { rewrite Hr. replace (s_len r - 1) with (zlen c) by lia. apply zget_mid. }
      rewrite (bind_Ok _ _ _ _ _ (sload_ok m r _ prev Hwr Hl)). reflexivity. }
    rewrite (bind_Ok _ _ _ _ _ Hdup).
    assert (Heq : eqb prev x = eqb x lastin).
    { assert (Hs : eqb prev x = eqb x prev).
      { destruct (eqb prev x) eqn:E1, (eqb x prev) eqn:E2; auto; [apply Hsym in E1|apply Hsym in E2]; congruence. }
      rewrite Hs. destruct Hp as [Hp| ->]; auto.
      destruct (eqb x prev) eqn:E1, (eqb x lastin) eqn:E2; auto.
      - rewrite <- E2. symmetry. eapply Htr; eauto.
      - rewrite <- E1. eapply Htr; eauto. }
    assert (Hc' : contents m0 a = (done ++ [x]) ++ rest) by (rewrite Hc; apply snoc_assoc).
    simpl drop_repeats_after. rewrite Heq. destruct (eqb x lastin) eqn:Ex.
    + destruct (IH _ m r c prev x Hc' Hf Hr) as (r' & m' & E & F & G); [left; apply Hsym; congruence|].
      rewrite zlen_snoc in E. exists r', m'. auto.
    + destruct (append_fresh zero grow m0 m r x Hf) as (r1 & m1 & E1 & F1 & C1 & _).
      rewrite (bind_Ok _ _ _ _ _ E1).
      destruct (IH _ m1 r1 (contents m r) x x Hc' F1 C1 (or_intror eq_refl)) as (r' & m' & E & F & G).
      rewrite zlen_snoc in E. exists r', m'. rewrite G, C1, <- app_assoc. auto.
Qed.

Lemma UniqueCopy_ok zero grow eqb (PE : partial_equiv eqb) m a :
  wf_slice m a ->
  exists r m', UniqueCopy zero grow eqb a m = (Ok r, m') /\ wf_slice m' r /\
    contents m' r = drop_repeats eqb (contents m a) /\ fresh_storage m r /\ extends m m'.
Proof.
  intros Hwf. unfold UniqueCopy. pose proof Hwf as (H1 & H2 & H3 & H4). pose proof (zlen_contents m a Hwf) as Hz.
  assert (Hn : wf_slice m nil_slice) by (apply wf_nil; lia).
  destruct (Z.eqb_spec (s_len a) 0) as [E|E].
  - exists nil_slice, m. rewrite (contents_empty m a Hwf E).
    split; [reflexivity|]. split; [auto|]. split; [auto|]. split; [right; auto|apply extends_refl].
  - rewrite (len_contents m a Hwf).
    destruct (contents m a) as [|x rest] eqn:Ec; [change (zlen (@nil T)) with 0 in Hz; lia|].
    cbn [length UniqueCopy_loop].
    assert (Hx : zget (contents m a) 0 = Some x) by now rewrite Ec.
    rewrite (bind_Ok _ _ _ _ _ (sload_ok m a 0 x Hwf Hx)).
    change (s_len nil_slice >? 0) with false. cbv iota. rewrite bind_ret.
    assert (Hf : fresh m m nil_slice) by (split; [apply extends_refl|]; split; [auto|right; auto]).
    destruct (append_fresh zero grow m m nil_slice x Hf) as (r1 & m1 & E1 & F1 & C1 & _).
    rewrite (bind_Ok _ _ _ _ _ E1).
    destruct (UniqueCopy_loop_ok zero grow eqb PE m a Hwf rest [x] m1 r1 [] x x) as (r' & m' & E' & (F & F' & F'') & G); auto.
    exists r', m'. split; [exact E'|]. rewrite G, C1. auto.
Qed.

Lemma write_at_nil m s pos : (s_arr s < length m)%nat -> write_at m s pos [] = m.
Proof.
  intros H. unfold write_at. rewrite zwrite_nil. apply upd_self. unfold arr_of. now apply nth_error_nth'.
Qed.

Lemma Copy_ok zero grow m a :
  wf_slice m a ->
  exists r m', Copy zero grow a m = (Ok r, m') /\ wf_slice m' r /\ contents m' r = contents m a /\
    (length m <= s_arr r)%nat /\ extends m m'.
Proof.
  intros Hwf. unfold Copy. pose proof Hwf as (H1 & _).
  assert (E : lit_slice [] m = (Ok (mkSlice (length m) 0 0 0), m ++ [[]])) by reflexivity.
  rewrite (bind_Ok _ _ _ _ _ E).
  assert (Hwe : wf_slice (m ++ [[]]) (mkSlice (length m) 0 0 0)).
  { unfold wf_slice. simpl. rewrite app_length. simpl. pose proof (zlen_nonneg (arr_of (m ++ [[]]) (mkSlice (length m) 0 0 0))). lia. }
  unfold append_slice.
  pose proof (extends_app m []) as X.
  rewrite (extends_contents m (m ++ [[]]) a X H1).
  destruct (append_list_ok zero grow (mkSlice (length m) 0 0 0) (contents m a) (m ++ [[]]) Hwe) as (r & m' & E1 & W & C & L & F).
  exists r, m'. split; [exact E1|]. split; [auto|]. split; [rewrite C; rewrite (contents_empty _ _ Hwe); auto|].
  destruct (_ <=? _).
  - destruct F as (F1 & F2 & F3 & F4). rewrite F1. split; [simpl; lia|]. subst m'. apply extends_write; auto.
  - destruct F as (F1 & F2 & F3 & F4). rewrite F1, app_length. split; [lia|]. eapply extends_trans; eauto.
Qed.

Lemma CopyTo_ok zero grow m a to :
  wf_slice m a -> wf_slice m to ->
  exists r m', CopyTo zero grow a to m = (Ok r, m') /\ wf_slice m' r /\ contents m' r = contents m a /\
    append_frame m m' to r (s_len a).
Proof.
  intros Ha Hto. unfold CopyTo. pose proof Hto as (H1 & H2 & H3 & H4). pose proof Ha as (K1 & K2 & K3 & K4).
  unfold bind. unfold lift_o at 1. rewrite reslice_prefix by lia.
  set (t := mkSlice (s_arr to) (s_off to) 0 (s_cap to)).
  assert (Ht : wf_slice m t) by (apply wf_prefix; auto; lia).
  unfold append_slice.
  destruct (append_list_ok zero grow t (contents m a) m Ht) as (r & m' & E1 & W & C & L & F).
  pose proof (zlen_contents m a Ha) as Hz. rewrite Hz in *.
  exists r, m'. split; [exact E1|]. split; [auto|]. split; [rewrite C; rewrite (contents_empty _ _ Ht); auto|].
  unfold append_frame. split; [simpl in L; lia|].
  change (s_len t) with 0 in *. rewrite Z.add_0_l in *. change (s_cap t) with (s_cap to) in *.
  destruct (Z.leb_spec (s_len a) (s_cap to)) as [L1|L1].
  - destruct F as (F1 & F2 & F3 & F4). do 3 (split; [auto|]). subst m'.
    apply (same_except_write_at m t); auto; simpl; unfold arr_of in *; simpl; lia.
  - destruct F as (F1 & F2 & F3 & F4). split; [auto|]. split; [lia|auto].
Qed.

(** Fill *)
Lemma FillPattern_ok m a p :
  wf_slice m a -> wf_slice m p -> s_len a <= 2^62 ->
  s_len p <> 0 ->
  exists m', FillPattern a p m = (Ok tt, m') /\ wf_slice m' a /\
    (forall i, 0 <= i < s_len a -> zget (contents m' a) i = zget (contents m p) (i mod s_len p)) /\
    same_except m m' (s_arr a) (s_off a) (s_off a + s_len a).
Proof.
  intros Ha Hp H62 Hn. pose proof Ha as (H1 & H2 & H3 & H4). pose proof Hp as (K1 & K2 & K3 & K4).
  pose proof (zlen_contents m p Hp) as Hzp. pose proof (zlen_contents m a Ha) as Hza.
  unfold FillPattern. destruct (Z.eqb_spec (s_len p) 0) as [|_]; [lia|].
  set (n := Z.min (s_len a) (s_len p)).
  set (w := zwrite (contents m a) 0 (zsub (contents m p) 0 n)).
  assert (Hzs : zlen (zsub (contents m p) 0 n) = n) by (rewrite zlen_zsub; lia).
  assert (Hw : zlen w = s_len a) by (unfold w; rewrite zlen_zwrite; lia).
  assert (E : copy_slice a p m = (Ok tt, write_at m a 0 w)).
  { unfold copy_slice. f_equal. fold n. unfold write_at. f_equal.
    apply zlist_eq. intros i Hi. rewrite !zget_zwrite by (rewrite ?Hzs, ?Hw; lia).
    rewrite Hzs, Hw, Z.add_0_r. unfold w.
    destruct (Z.leb_spec (s_off a) i), (Z.ltb_spec i (s_off a + n)), (Z.ltb_spec i (s_off a + s_len a)); simpl; try lia; auto.
    - rewrite zget_zwrite by lia. rewrite Hzs.
      destruct (Z.leb_spec 0 (i - s_off a)), (Z.ltb_spec (i - s_off a) (0 + n)); simpl; try lia. f_equal. lia.
    - rewrite zget_zwrite by lia. rewrite Hzs.
      destruct (Z.leb_spec 0 (i - s_off a)), (Z.ltb_spec (i - s_off a) (0 + n)); simpl; try lia.
      rewrite zget_contents by (auto; lia). destruct (Z.ltb_spec (i - s_off a) (s_len a)); [f_equal; lia|lia]. }
  rewrite (bind_Ok _ _ _ _ _ E).
  assert (Hg : forall i, 0 <= i < n -> zget w i = zget (contents m p) i).
  { intros i Hi. unfold w. rewrite zget_zwrite by lia. rewrite Hzs.
    destruct (Z.leb_spec 0 i), (Z.ltb_spec i (0 + n)); simpl; try lia. rewrite zget_zsub by lia.
    destruct (Z.ltb_spec (i - 0) (n - 0)); [f_equal; lia|lia]. }
  destruct (double_loop_spec 64 w (s_len p) (s_len p)) as (w' & Hr & Hl & Hg'); try lia.
  { apply Z.mod_same. lia. }
  { intros i Hi. f_equal. symmetry. apply Z.mod_small. lia. }
  rewrite (on_slice_at m a w _ _ _ Ha Hw Hr ltac:(lia)).
  exists (write_at m a 0 w'). split; [reflexivity|]. split; [apply wf_write_self; auto; lia|].
  split; [|apply same_except_write; auto; lia].
  intros i Hi. rewrite contents_write_at by (auto; lia). rewrite Hg' by lia. apply Hg.
  pose proof (Z.mod_pos_bound i (s_len p) ltac:(lia)). pose proof (Z.mod_le i (s_len p) ltac:(lia) ltac:(lia)). lia.
Qed.

(** *** TransformTo *)
Lemma ose_refl m (a : nat) lo hi : old_same_except m m a lo hi.
Proof. split; [auto|]. split; [auto|]. split; auto. Qed.

Lemma ose_weaken m m' (a : nat) lo hi lo' hi' :
  old_same_except m m' a lo hi -> lo' <= lo -> hi <= hi' -> old_same_except m m' a lo' hi'.
Proof. intros (A & B & C & D) H1 H2. split; [auto|]. split; [auto|]. split; [|auto]. intros. apply C; auto; lia. Qed.

Lemma ose_extends m m1 m2 (a : nat) lo hi : old_same_except m m1 a lo hi -> extends m1 m2 -> old_same_except m m2 a lo hi.
Proof.
  intros (A & B & C & D) (E & F). split; [lia|]. split; [|split].
  - intros b Hb Hn. rewrite F by lia. auto.
  - intros i Ha Hi Ho. rewrite F by lia. auto.
  - intros Ha. rewrite F by lia. auto.
Qed.
Lemma ose_same m m1 m2 (a : nat) lo hi : old_same_except m m1 a lo hi -> same_except m1 m2 a lo hi -> length m2 = length m1 -> old_same_except m m2 a lo hi.
Proof.
  intros (A & B & C & D) (E & F & G & _) L. split; [lia|]. split; [|split].
  - intros b Hb Hn. rewrite <- E by auto. auto.
  - intros i Ha Hi Ho. rewrite <- F by auto. auto.
  - intros Ha. rewrite <- G. auto.
Qed.
Lemma ose_same_other m m1 m2 (a b : nat) lo hi lo' hi' : old_same_except m m1 a lo hi -> same_except m1 m2 b lo' hi' -> (length m <= b)%nat -> length m2 = length m1 -> old_same_except m m2 a lo hi.
Proof.
  intros (A & B & C & D) (E & F & G) Hb L. split; [lia|]. split; [|split].
  - intros c Hc Hn. rewrite <- E by lia. auto.
  - intros i Ha Hi Ho. rewrite <- E by lia. auto.
  - intros Ha. rewrite <- E by lia. auto.
Qed.

Definition no_clobber a b : Prop :=
  s_arr a <> s_arr b \/ s_off b <= s_off a \/ s_off a + s_len a <= s_off b.

Lemma TransformTo_loop_ok zero grow {St} (op : St -> T -> T * St) m0 a b0 (Ha : wf_slice m0 a) (Hb0 : wf_slice m0 b0)
  (Hnc : no_clobber a b0) rest : forall done m b st,
  contents m0 a = done ++ rest ->
  wf_slice m b -> s_len b = zlen done ->
  old_same_except m0 m (s_arr b0) (s_off b0) (s_off b0 + Z.min (zlen done) (s_cap b0)) ->
  (if zlen done <=? s_cap b0 then s_arr b = s_arr b0 /\ s_off b = s_off b0 /\ s_cap b = s_cap b0
   else (length m0 <= s_arr b)%nat) ->
  exists b' m', TransformTo_loop zero grow op a (length rest) (zlen done) b st m =
      (Ok (b', snd (map_st op st rest)), m') /\ wf_slice m' b' /\
      contents m' b' = contents m b ++ fst (map_st op st rest) /\ s_len b' = s_len a /\
  old_same_except m0 m' (s_arr b0) (s_off b0) (s_off b0 + Z.min (s_len a) (s_cap b0)) /\
  (if s_len a <=? s_cap b0 then s_arr b' = s_arr b0 /\ s_off b' = s_off b0 /\ s_cap b' = s_cap b0
   else (length m0 <= s_arr b')%nat).
Proof.
  pose proof Ha as (A1 & A2 & A3 & A4). pose proof Hb0 as (B1 & B2 & B3 & B4).
  pose proof (zlen_contents m0 a Ha) as Hza.
  induction rest as [|x rest IH]; intros done m b st Hc Hwb Hlb Hos Hloc.
  - exists b, m. simpl. rewrite app_nil_r in *. rewrite Hc in Hza. rewrite <- Hza. split; [reflexivity|]. auto 8.
  - cbn [length TransformTo_loop].
    pose proof (zlen_nonneg done) as Hd. pose proof (zlen_nonneg rest) as Hrr.
    assert (Hlen : s_len a = zlen done + 1 + zlen rest) by (rewrite <- Hza, Hc, zlen_app, zlen_cons; lia).
    assert (Hx0 : zget (contents m0 a) (zlen done) = Some x) by (rewrite Hc; apply zget_mid).
    pose proof Hos as (O1 & O2 & O3 & O4).
    assert (Hwa : wf_slice m a).
    { unfold wf_slice, arr_of in *. split; [lia|]. split; [lia|]. split; [lia|].
      destruct (Nat.eq_dec (s_arr a) (s_arr b0)) as [e|ne]; [rewrite e, O4 by lia; rewrite <- e; lia|rewrite O2 by auto; lia]. }
    assert (Hx : zget (contents m a) (zlen done) = Some x).
    { rewrite zget_contents in * by (auto; lia). destruct (Z.ltb_spec (zlen done) (s_len a)); [|lia].
      rewrite <- Hx0. unfold arr_of.
      destruct (Nat.eq_dec (s_arr a) (s_arr b0)) as [e|ne]; [|now rewrite O2 by auto].
      rewrite e. apply O3; try lia. destruct Hnc as [N|[N|N]]; [congruence|lia|lia]. }
    rewrite (bind_Ok _ _ _ _ _ (sload_ok m a _ x Hwa Hx)). simpl map_st. destruct (op st x) as [y st1].
    destruct (append_list_ok zero grow b [y] m Hwb) as (b1 & m1 & E1 & W1 & C1 & L1 & F1).
    change (zlen [y]) with 1 in *. rewrite (bind_Ok _ _ _ _ _ E1).
    assert (Hc' : contents m0 a = (done ++ [x]) ++ rest) by (rewrite Hc; apply snoc_assoc).
    destruct (IH (done ++ [x]) m1 b1 st1 Hc' W1) as (b' & m' & E & W & C & L & O & F); rewrite ?zlen_snoc in *.
    + lia.
    + pose proof Hwb as (Wb1 & Wb2 & Wb3 & Wb4).
      destruct (Z.leb_spec (zlen done) (s_cap b0)) as [La|La].
      * destruct Hloc as (P1 & P2 & P3). rewrite Hlb, P3 in F1.
        destruct (Z.leb_spec (zlen done + 1) (s_cap b0)) as [Lb|Lb].
        -- destruct F1 as (_ & _ & _ & F4). apply (ose_same m0 m).
           ++ eapply ose_weaken; eauto; lia.
           ++ rewrite <- P1. subst m1. apply (same_except_write_at m b); auto; change (zlen [y]) with 1; lia.
           ++ subst m1. apply write_at_length.
        -- destruct F1 as (_ & _ & _ & F4). eapply ose_extends; eauto. eapply ose_weaken; eauto; lia.
      * destruct (s_len b + 1 <=? s_cap b) eqn:Lc.
        -- apply Z.leb_le in Lc. destruct F1 as (_ & _ & _ & F4). subst m1.
           eapply (ose_same_other m0 m _ _ (s_arr b)); [eapply ose_weaken; eauto; lia| |lia|apply write_at_length].
           apply (same_except_write_at m b _ _ (s_off b) (s_off b + s_cap b)); auto; change (zlen [y]) with 1; lia.
        -- destruct F1 as (_ & _ & _ & F4). eapply ose_extends; eauto. eapply ose_weaken; eauto; lia.
    + destruct (Z.leb_spec (zlen done) (s_cap b0)) as [La|La].
      * destruct Hloc as (P1 & P2 & P3). rewrite Hlb, P3 in F1.
        destruct (Z.leb_spec (zlen done + 1) (s_cap b0)) as [Lb|Lb].
        -- destruct F1 as (F1 & F2 & F3 & _). rewrite F1, F2, F3. auto.
        -- destruct F1 as (F1 & _). rewrite F1. lia.
      * destruct (Z.leb_spec (zlen done + 1) (s_cap b0)); [lia|].
        destruct (s_len b + 1 <=? s_cap b); destruct F1 as (F1 & _); rewrite F1; auto; lia.
    + exists b', m'. destruct (map_st op st1 rest). simpl in *.
      split; [exact E|]. split; [auto|]. split; [rewrite C, C1, <- app_assoc; auto|]. auto.
Qed.

Lemma TransformTo_ok zero grow {St} (op : St -> T -> T * St) st m a b :
  wf_slice m a -> wf_slice m b -> no_clobber a b ->
  exists b' m', TransformTo zero grow a op b st m = (Ok (b', snd (map_st op st (contents m a))), m') /\
    wf_slice m' b' /\ contents m' b' = fst (map_st op st (contents m a)) /\
    old_same_except m m' (s_arr b) (s_off b) (s_off b + Z.min (s_len a) (s_cap b)) /\
    (if s_len a <=? s_cap b then s_arr b' = s_arr b /\ s_off b' = s_off b /\ s_cap b' = s_cap b
     else (length m <= s_arr b')%nat).
Proof.
  intros Ha Hb Hnc. pose proof Hb as (H1 & H2 & H3 & H4). unfold TransformTo.
  unfold bind. unfold lift_o at 1. rewrite reslice_prefix by lia.
  set (t := mkSlice (s_arr b) (s_off b) 0 (s_cap b)).
  assert (Ht : wf_slice m t) by (apply wf_prefix; auto; lia).
  rewrite (len_contents m a Ha).
  destruct (TransformTo_loop_ok zero grow op m a b Ha Hb Hnc (contents m a) [] m t st) as (b' & m' & E & W & C & L & O & F); auto.
  - apply ose_refl.
  - change (zlen (@nil T)) with 0. destruct (Z.leb_spec 0 (s_cap b)); [auto|lia].
  - exists b', m'. split; [exact E|]. split; [auto|]. split; [rewrite C; now rewrite (contents_empty _ _ Ht)|]. auto.
Qed.

Lemma TransformCopy_ok {R St} (zeroR : R) (op : St -> T -> R * St) st (a : list T) (m : mem R) :
  exists (r : slice) (m' : mem R), TransformCopy zeroR a op st m = (Ok (r, snd (map_st op st a)), m') /\ wf_slice m' r /\
    contents m' r = fst (map_st op st a) /\ (length m <= s_arr r)%nat /\ extends m m'.
Proof.
  unfold TransformCopy. pose proof (zlen_nonneg a).
  destruct (make_slice zeroR (zlen a) (zlen a) m) as [o m1] eqn:E. pose proof E as E'.
  unfold make_slice in E'. destruct (Z.leb_spec 0 (zlen a)), (Z.leb_spec (zlen a) (zlen a)); simpl in E'; try lia.
  destruct o as [r| |]; try discriminate. destruct (wf_make zeroR m _ _ r m1 E) as (W1 & W2 & W3 & W4 & W5 & W6 & W7).
  rewrite (bind_Ok _ _ _ _ _ E).
  assert (Hp : TransformCopy_loop op a 0 st (contents m1 r) = (Ok (snd (map_st op st a)), fst (map_st op st a))).
  { rewrite W2. replace (Z.to_nat (zlen a)) with (length a) by (unfold zlen; lia).
    apply (TransformCopy_loop_spec op a [] (repeat zeroR (length a)) st). apply repeat_length. }
  assert (Hlen : zlen (fst (map_st op st a)) = s_len r).
  { rewrite W3. unfold zlen. f_equal. clear. revert st. induction a as [|x l IH]; intros st; [reflexivity|].
    simpl. destruct (op st x) as [y st1]. specialize (IH st1). destruct (map_st op st1 l). simpl in *. auto. }
  rewrite (bind_Ok _ _ _ _ _ (on_slice_start m1 r _ _ _ W1 Hp)).
  eexists _, _. split; [reflexivity|]. split; [now apply wf_write_self|].
  split; [now apply contents_write_at|]. split; [lia|]. apply extends_write; auto; lia.
Qed.

(** Spec sanity. *)
Lemma drop_repeats_no_adjacent eqb (PE : partial_equiv eqb) (l : list T) : forall i x y,
  0 <= i -> zget (drop_repeats eqb l) i = Some x -> zget (drop_repeats eqb l) (i + 1) = Some y -> eqb y x = false.
Proof.
  destruct PE as [Hsym Htr].
  assert (H : forall l (p k : T), (eqb p k = true \/ p = k) -> forall i x y, 0 <= i ->
    zget (k :: drop_repeats_after eqb p l) i = Some x -> zget (k :: drop_repeats_after eqb p l) (i + 1) = Some y -> eqb y x = false).
  { clear l. induction l as [|z l IH]; intros p k Hp i x y Hi Hx Hy.
    - simpl in Hy. rewrite zget_cons_S in Hy by lia. apply zget_Some_range in Hy. change (zlen (@nil T)) with 0 in Hy. lia.
    - simpl in Hx, Hy. destruct (eqb z p) eqn:Ez.
      + apply (IH z k) with (i := i); auto. destruct Hp as [Hp| ->]; [left; eapply Htr; eauto|left; auto].
      + destruct (Z.eq_dec i 0) as [->|Hn].
        * rewrite zget_cons_0 in Hx. injection Hx as <-. simpl in Hy. rewrite zget_cons_S in Hy by lia.
          simpl in Hy. rewrite zget_cons_0 in Hy. injection Hy as <-.
          destruct Hp as [Hp| ->]; auto. destruct (eqb z k) eqn:E; auto.
          rewrite <- Ez. symmetry. eapply Htr; eauto.
        * rewrite zget_cons_S in Hx by lia. rewrite zget_cons_S in Hy by lia.
          apply (IH z z (or_intror eq_refl) (i - 1)); auto; try lia.
          replace (i - 1 + 1) with (i + 1 - 1) by lia. auto. }
  intros i x y Hi. destruct l as [|z l]; [simpl; intros; apply zget_Some_range in H0; change (zlen (@nil T)) with 0 in H0; lia|].
  simpl. apply H; auto.
Qed.
End TM.
