(** The callback-taking slice functions with callbacks that may panic. *)
From Verif Require Import BaseLemmas Spec Spec_TransformFx Proof_Mem Model_Transform Proof_Transform Proof_TransformMem
  Model_TransformFx.

Lemma bind_own {S St A B} (p : M S A) (k : A -> M (S * St) B) s st a s' :
  p s = (Ok a, s') -> bind (own p) k (s, st) = k a (s', st).
Proof. intros H. unfold bind, own. cbn. now rewrite H. Qed.
Lemma bind_callback {S St A B} (p : M St A) (k : A -> M (S * St) B) s st :
  bind (callback p) k (s, st) =
  match p st with
  | (Ok a, st') => k a (s, st')
  | (Panic, st') => (Panic, (s, st'))
  | (NoFuel, st') => (NoFuel, (s, st'))
  end.
Proof. unfold bind, callback. cbn. destruct (p st) as [[a| |] st']; reflexivity. Qed.

Lemma bind_giving {S A B} (p : M S A) (k : A -> M S B) s o v s' : p s = (giving o v, s') ->
  bind p k s = match o with Ok _ => k v s' | Panic => (Panic, s') | NoFuel => (NoFuel, s') end.
Proof. intros E. unfold bind. rewrite E. destruct o; reflexivity. Qed.

Section Fx.
Context {T St : Type}.
Implicit Types (l rest : list T) (m : mem T) (a b r : slice) (st : St).

Lemma calls_length {R} (f : T -> M St R) l : forall st, (length (results (calls f l st)) <= length l)%nat.
Proof.
  induction l as [|x l IH]; intros st; cbn; [lia|]. destruct (f x st) as [[y| |] st']; cbn; try lia. specialize (IH st'). lia.
Qed.
Lemma calls_all {R} (f : T -> M St R) l : forall st, ended (calls f l st) = Ok tt -> length (results (calls f l st)) = length l.
Proof.
  induction l as [|x l IH]; intros st; cbn; [reflexivity|]. destruct (f x st) as [[y| |] st']; cbn; try discriminate. intros H. f_equal. auto.
Qed.
Lemma answered_length c l : forall rs, (length (answered c l rs) <= length l)%nat.
Proof. induction l as [|x l IH]; intros [|q rs]; cbn; try lia. specialize (IH rs). destruct (Bool.eqb q c); cbn; lia. Qed.
Lemma answered_length_rs c l : forall rs, (length (answered c l rs) <= length rs)%nat.
Proof. induction l as [|x l IH]; intros [|q rs]; cbn; try lia. specialize (IH rs). destruct (Bool.eqb q c); cbn; lia. Qed.
Lemma answered_In c x l : forall rs, In x (answered c l rs) -> In x l.
Proof. induction l as [|y l IH]; intros [|q rs]; cbn; try tauto. destruct (Bool.eqb q c); cbn; intuition eauto. Qed.
Lemma replaced_length new l : forall rs, length (replaced new l rs) = length l.
Proof. induction l as [|x l IH]; intros [|q rs]; cbn; auto. Qed.

Lemma transform_loop (op : T -> M St T) rest : forall pre st,
  TransformFx_loop op (length rest) (zlen pre) (pre ++ rest, st) =
  (ended (calls op rest st), (pre ++ results (calls op rest st) ++ untouched rest (results (calls op rest st)), left_in (calls op rest st))).
Proof using Type.
  induction rest as [|x rest IH]; intros pre st; [reflexivity|].
  cbn [length TransformFx_loop calls]. rewrite (bind_own _ _ _ _ _ _ (wload_mid pre x rest)), bind_callback.
  destruct (op x st) as [[y| |] st1]; [|reflexivity|reflexivity].
  rewrite (bind_own _ _ _ _ _ _ (wstore_mid pre x y rest)). rewrite snoc_assoc, <- (zlen_snoc pre y), IH.
  cbn [results ended left_in more]. unfold untouched. cbn [length skipn]. now rewrite <- app_assoc.
Qed.
Lemma generate_loop (gen : M St T) rest : forall pre st,
  GenerateFx_loop gen (length rest) (zlen pre) (pre ++ rest, st) =
  (ended (calls (fun _ => gen) rest st), (pre ++ results (calls (fun _ => gen) rest st) ++ untouched rest (results (calls (fun _ => gen) rest st)), left_in (calls (fun _ => gen) rest st))).
Proof using Type.
  induction rest as [|x rest IH]; intros pre st; [reflexivity|].
  cbn [length GenerateFx_loop calls]. rewrite bind_callback.
  destruct (gen st) as [[y| |] st1]; [|reflexivity|reflexivity].
  rewrite (bind_own _ _ _ _ _ _ (wstore_mid pre x y rest)). rewrite snoc_assoc, <- (zlen_snoc pre y), IH.
  cbn [results ended left_in more]. unfold untouched. cbn [length skipn]. now rewrite <- app_assoc.
Qed.
Lemma replace_loop (pred : T -> M St bool) new rest : forall pre st,
  ReplaceIfFx_loop pred new (length rest) (zlen pre) (pre ++ rest, st) =
  (ended (calls pred rest st), (pre ++ replaced new rest (results (calls pred rest st)), left_in (calls pred rest st))).
Proof using Type.
  induction rest as [|x rest IH]; intros pre st; [reflexivity|].
  cbn [length ReplaceIfFx_loop calls]. rewrite (bind_own _ _ _ _ _ _ (wload_mid pre x rest)), bind_callback.
  destruct (pred x st) as [[c| |] st1]; [|reflexivity|reflexivity]. cbn [results ended left_in more replaced].
  destruct c.
  - rewrite (bind_own _ _ _ _ _ _ (wstore_mid pre x new rest)). rewrite snoc_assoc, <- (zlen_snoc pre new), IH. now rewrite <- app_assoc.
  - unfold bind at 1. unfold ret at 1. rewrite snoc_assoc, <- (zlen_snoc pre x), IH. now rewrite <- app_assoc.
Qed.
Lemma remove_loop (cond : T -> M St bool) l0 rest : forall done kept st,
  l0 = done ++ rest -> (length kept <= length done)%nat ->
  RemoveIfFx_loop cond (length rest) (zlen done) (zlen kept) (kept ++ skipn (length kept) l0, st) =
  (let c := calls cond rest st in
   let k := kept ++ answered false rest (results c) in
   (giving (ended c) (zlen k), (k ++ skipn (length k) l0, left_in c))).
Proof using Type.
  induction rest as [|x rest IH]; intros done kept st E Hk.
  - cbn. now rewrite app_nil_r.
  - cbn [length RemoveIfFx_loop calls].
    assert (Hx : zget l0 (zlen done) = Some x) by (rewrite E; apply zget_mid).
    rewrite (bind_own _ _ _ _ _ _ (wload_ok _ _ _ (compact_load kept l0 (zlen done) x ltac:(unfold zlen; lia) Hx))), bind_callback.
    assert (E' : l0 = (done ++ [x]) ++ rest) by (rewrite E; apply snoc_assoc).
    assert (Hl : zlen kept < zlen l0).
    { rewrite E. unfold zlen. rewrite app_length. simpl. lia. }
    destruct (cond x st) as [[c| |] st1]; [|cbn; now rewrite app_nil_r|cbn; now rewrite app_nil_r].
    destruct c; cbn [negb].
    + rewrite <- (zlen_snoc done x), (IH (done ++ [x]) kept st1 E') by (rewrite app_length; lia). reflexivity.
    + rewrite (bind_own _ _ _ _ _ _ (compact_store kept l0 x Hl)).
      rewrite <- (zlen_snoc done x), <- (zlen_snoc kept x), (IH (done ++ [x]) (kept ++ [x]) st1 E')
        by (rewrite !app_length; simpl; lia).
      cbn. rewrite <- app_assoc. reflexivity.
Qed.
Lemma copy_loop {R} (op : T -> M St R) l : forall (pre zs : list R) st, length zs = length l ->
  TransformCopyFx_loop op l (zlen pre) (pre ++ zs, st) =
  (ended (calls op l st), (pre ++ results (calls op l st) ++ skipn (length (results (calls op l st))) zs, left_in (calls op l st))).
Proof using Type.
  induction l as [|x l IH]; intros pre zs st Hl.
  - reflexivity.
  - destruct zs as [|z zs]; [discriminate|]. cbn [TransformCopyFx_loop calls]. rewrite bind_callback.
    destruct (op x st) as [[y| |] st1]; [|reflexivity|reflexivity].
    rewrite (bind_own _ _ _ _ _ _ (wstore_mid pre z y zs)). rewrite snoc_assoc, <- (zlen_snoc pre y), IH by (simpl in Hl; lia).
    cbn [results ended left_in more length skipn]. now rewrite <- app_assoc.
Qed.

Lemma on_slice_fx_ok {A} (p : M (list T * St) A) m a st o w st' :
  wf_slice m a -> p (contents m a, st) = (o, (w, st')) -> length w = length (contents m a) ->
  exists m', on_slice_fx a p (m, st) = (o, (m', st')) /\ m' = write_at m a 0 w /\ wf_slice m' a /\ contents m' a = w /\
    same_except m m' (s_arr a) (s_off a) (s_off a + s_len a).
Proof using Type.
  intros Hwf Hp Hl. pose proof (zlen_contents m a Hwf) as Hz.
  assert (Hw : zlen w = s_len a) by (unfold zlen in *; lia).
  exists (write_at m a 0 w). split; [unfold on_slice_fx; cbn [fst snd]; now rewrite Hp|]. split; [reflexivity|].
  split; [now apply wf_write_self|]. split; [now apply contents_write_at|now apply same_except_write].
Qed.

Lemma remove_ok (cond : T -> M St bool) m a st : wf_slice m a ->
  let c := calls cond (contents m a) st in
  let k := answered false (contents m a) (results c) in
  exists m' r, RemoveIfFx a cond (m, st) = (giving (ended c) r, (m', left_in c)) /\
    r = mkSlice (s_arr a) (s_off a) (zlen k) (s_cap a) /\
    wf_slice m' a /\ wf_slice m' r /\ contents m' r = k /\ contents m' a = k ++ skipn (length k) (contents m a) /\
    same_except m m' (s_arr a) (s_off a) (s_off a + zlen k).
Proof using Type.
  intros Hwf c k. pose proof (answered_length false (contents m a) (results c)) as Hk. fold k in Hk.
  destruct (compact_mem m a k Hwf Hk) as (R1 & R2 & R3 & R4 & _).
  assert (Hp : (n <- own wlen ;; RemoveIfFx_loop cond (Z.to_nat n) 0 0) (contents m a, st) =
    (giving (ended c) (zlen k), (k ++ skipn (length k) (contents m a), left_in c))).
  { rewrite (bind_own wlen _ (contents m a) st _ _ eq_refl), zlen_to_nat.
    apply (remove_loop cond (contents m a) (contents m a) [] [] st); auto. }
  destruct (on_slice_fx_ok _ m a st _ _ _ Hwf Hp (compact_len k _ Hk)) as (m' & E & Em & W & Cm & _).
  exists m'. eexists. split; [|split; [reflexivity|]].
  - unfold RemoveIfFx. rewrite (bind_giving _ _ _ _ _ _ E). unfold giving. destruct (ended c); [unfold lift_o; rewrite R1; reflexivity|reflexivity|reflexivity].
  - subst m'. auto.
Qed.

Lemma remove_copy_loop zero grow (cond : T -> M St bool) m0 a (Ha : wf_slice m0 a) rest : forall done m r st,
  contents m0 a = done ++ rest -> fresh m0 m r ->
  exists r' m', RemoveIfCopyFx_loop zero grow a cond (length rest) (zlen done) r (m, st) =
      (giving (ended (calls cond rest st)) r', (m', left_in (calls cond rest st))) /\ fresh m0 m' r' /\
      contents m' r' = contents m r ++ answered false rest (results (calls cond rest st)).
Proof using Type.
  induction rest as [|x rest IH]; intros done m r st Hc Hf.
  - exists r, m. cbn. rewrite app_nil_r. auto.
  - cbn [length RemoveIfCopyFx_loop calls]. assert (Hx : zget (contents m0 a) (zlen done) = Some x) by (rewrite Hc; apply zget_mid).
    rewrite (bind_own _ _ _ _ _ _ (fresh_sload m0 m r a _ x Hf Ha Hx)), bind_callback.
    assert (Hc' : contents m0 a = (done ++ [x]) ++ rest) by (rewrite Hc; apply snoc_assoc).
    destruct (cond x st) as [[c| |] st1]; [|exists r, m; cbn; rewrite app_nil_r; auto|exists r, m; cbn; rewrite app_nil_r; auto].
    destruct c; cbn [negb].
    + destruct (IH _ m r st1 Hc' Hf) as (r' & m' & E & F & G). rewrite zlen_snoc in E.
      exists r', m'. cbn. auto.
    + destruct (append_fresh zero grow m0 m r x Hf) as (r1 & m1 & E1 & F1 & C1 & _).
      rewrite (bind_own _ _ _ _ _ _ E1).
      destruct (IH _ m1 r1 st1 Hc' F1) as (r' & m' & E & F & G). rewrite zlen_snoc in E.
      exists r', m'. cbn. rewrite G, C1, <- app_assoc. auto.
Qed.

Lemma transform_to_loop zero grow (op : T -> M St T) m0 a b0 (Ha : wf_slice m0 a) (Hb0 : wf_slice m0 b0)
  (Hnc : no_clobber a b0) rest : forall done m b st,
  contents m0 a = done ++ rest ->
  wf_slice m b -> s_len b = zlen done ->
  old_same_except m0 m (s_arr b0) (s_off b0) (s_off b0 + Z.min (zlen done) (s_cap b0)) ->
  (if zlen done <=? s_cap b0 then s_arr b = s_arr b0 /\ s_off b = s_off b0 /\ s_cap b = s_cap b0
   else (length m0 <= s_arr b)%nat) ->
  let c := calls op rest st in
  let n := zlen done + zlen (results c) in
  exists b' m', TransformToFx_loop zero grow op a (length rest) (zlen done) b (m, st) =
      (giving (ended c) b', (m', left_in c)) /\ wf_slice m' b' /\
      contents m' b' = contents m b ++ results c /\
  old_same_except m0 m' (s_arr b0) (s_off b0) (s_off b0 + Z.min n (s_cap b0)) /\
  (if n <=? s_cap b0 then s_arr b' = s_arr b0 /\ s_off b' = s_off b0 /\ s_cap b' = s_cap b0
   else (length m0 <= s_arr b')%nat).
Proof using Type.
  pose proof Ha as (A1 & A2 & A3 & A4). pose proof Hb0 as (B1 & B2 & B3 & B4).
  pose proof (zlen_contents m0 a Ha) as Hza.
  induction rest as [|x rest IH]; intros done m b st Hc Hwb Hlb Hos Hloc; cbv zeta.
  - exists b, m. cbn [calls results ended left_in giving]. rewrite app_nil_r, zlen_nil, Z.add_0_r. split; [reflexivity|]. auto.
  - cbn [length TransformToFx_loop calls].
    pose proof (zlen_nonneg done) as Hd. pose proof (zlen_nonneg rest) as Hrr.
    assert (Hlen : s_len a = zlen done + 1 + zlen rest) by (rewrite <- Hza, Hc, zlen_app, zlen_cons; lia).
    assert (Hx0 : zget (contents m0 a) (zlen done) = Some x) by (rewrite Hc; apply zget_mid).
    pose proof Hos as (O1 & O2 & O3 & O4).
    assert (Hwa : wf_slice m a).
    { unfold wf_slice, arr_of in *. split; [lia|]. split; [lia|]. split; [lia|].
      destruct (Nat.eq_dec (s_arr a) (s_arr b0)) as [e|ne]; [rewrite e, O4 by lia; rewrite <- e; lia|rewrite O2 by auto; lia]. }
    assert (Hx : zget (contents m a) (zlen done) = Some x).
    { rewrite zget_contents in * by (auto; lia). destruct (Z.ltb_spec (zlen done) (s_len a)); [|lia].
      rewrite <- Hx0. unfold arr_of.
      destruct (Nat.eq_dec (s_arr a) (s_arr b0)) as [e|ne]; [|now rewrite O2 by auto].
      rewrite e. apply O3; try lia. destruct Hnc as [N|[N|N]]; [congruence|lia|lia]. }
    rewrite (bind_own _ _ _ _ _ _ (sload_ok m a _ x Hwa Hx)), bind_callback.
    destruct (op x st) as [[y| |] st1].
    2,3: exists b, m; cbn [results ended left_in giving]; rewrite app_nil_r, zlen_nil, Z.add_0_r; split; [reflexivity|]; auto.
    destruct (append_list_ok zero grow b [y] m Hwb) as (b1 & m1 & E1 & W1 & C1 & L1 & F1).
    change (zlen [y]) with 1 in *. rewrite (bind_own _ _ _ _ _ _ E1).
    assert (Hc' : contents m0 a = (done ++ [x]) ++ rest) by (rewrite Hc; apply snoc_assoc).
    destruct (IH (done ++ [x]) m1 b1 st1 Hc' W1) as (b' & m' & E & W & C & O & F); rewrite ?zlen_snoc in *.
    + lia.
    + pose proof Hwb as (Wb1 & Wb2 & Wb3 & Wb4).
      destruct (Z.leb_spec (zlen done) (s_cap b0)) as [La|La].
      * destruct Hloc as (P1 & P2 & P3). rewrite Hlb, P3 in F1.
        destruct (Z.leb_spec (zlen done + 1) (s_cap b0)) as [Lb|Lb].
        -- destruct F1 as (_ & _ & _ & F4). apply (ose_same m0 m).
           ++ eapply ose_weaken; eauto; lia.
           ++ rewrite <- P1. subst m1. apply (same_except_write_at m b); auto; change (zlen [y]) with 1; lia.
           ++ subst m1. apply write_at_length.
        -- destruct F1 as (_ & _ & _ & F4). eapply ose_extends; eauto. eapply ose_weaken; eauto; lia.
      * destruct (s_len b + 1 <=? s_cap b) eqn:Lc.
        -- apply Z.leb_le in Lc. destruct F1 as (_ & _ & _ & F4). subst m1.
           eapply (ose_same_other m0 m _ _ (s_arr b)); [eapply ose_weaken; eauto; lia| |lia|apply write_at_length].
           apply (same_except_write_at m b _ _ (s_off b) (s_off b + s_cap b)); auto; change (zlen [y]) with 1; lia.
        -- destruct F1 as (_ & _ & _ & F4). eapply ose_extends; eauto. eapply ose_weaken; eauto; lia.
    + destruct (Z.leb_spec (zlen done) (s_cap b0)) as [La|La].
      * destruct Hloc as (P1 & P2 & P3). rewrite Hlb, P3 in F1.
        destruct (Z.leb_spec (zlen done + 1) (s_cap b0)) as [Lb|Lb].
        -- destruct F1 as (F1 & F2 & F3 & _). rewrite F1, F2, F3. auto.
        -- destruct F1 as (F1 & _). rewrite F1. lia.
      * destruct (Z.leb_spec (zlen done + 1) (s_cap b0)); [lia|].
        destruct (s_len b + 1 <=? s_cap b); destruct F1 as (F1 & _); rewrite F1; auto; lia.
    + exists b', m'. cbn [results ended left_in giving more]. rewrite zlen_cons.
      replace (zlen done + (1 + zlen (results (calls op rest st1)))) with (zlen done + 1 + zlen (results (calls op rest st1))) by lia.
      split; [exact E|]. split; [auto|]. split; [rewrite C, C1, <- app_assoc; reflexivity|]. auto.
Qed.
End Fx.
