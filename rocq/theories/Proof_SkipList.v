From Coq Require Import Sorted.
From Verif Require Import BaseLemmas Spec Trace Spec_List Spec_Map Nodes Proof_Nodes Model_SkipList.
Set Default Proof Using "Type".
Local Arguments Nat.ltb : simpl never.
Local Arguments zlen : simpl never. Local Arguments pload : simpl never. Local Arguments pmod : simpl never.
Local Arguments skipListMaxLevel : simpl never.

(** *** randomLevel *)
Lemma bits_Len64_bound k n : 0 <= k < 2 ^ n -> 0 <= n -> 0 <= bits_Len64 k <= n.
Proof.
  intros B Hn. unfold bits_Len64. destruct (Z.eqb_spec k 0); [lia|]. pose proof (Z.log2_nonneg k). assert (Z.log2 k < n) by (apply Z.log2_lt_pow2; lia). lia.
Qed.
Lemma cut_level_ok len : forall level, (level <= 3)%nat /\ cut_level level len = level \/ (3 <= cut_level level len <= level)%nat.
Proof.
  induction level as [|n IH]; [left; split; [lia|reflexivity]|]. cbn [cut_level]. destruct (Nat.ltb_spec 3 (S n)); cbn [andb]; [|left; split; [lia|reflexivity]].
  right. destruct (len <? 2 ^ Z.of_nat (S n - 3)); [|lia]. destruct IH as [[L E]|L]; lia.
Qed.
Lemma cut_level_len len : forall level, (cut_level level len <= 3)%nat \/ 2 ^ Z.of_nat (cut_level level len - 3) <= len.
Proof.
  induction level as [|n IH]; [left; cbn; lia|]. cbn [cut_level]. destruct (Nat.ltb_spec 3 (S n)); cbn [andb]; [|left; lia].
  destruct (Z.ltb_spec len (2 ^ Z.of_nat (S n - 3))); auto.
Qed.
Lemma randomLevel_range r len : (1 <= randomLevel r len <= skipListMaxLevel)%nat.
Proof.
  unfold randomLevel. set (k := Z.land _ _). assert (Bk : 0 <= k < 2 ^ 40).
  { unfold k. change (2 ^ Z.of_nat skipListMaxLevel - 1) with (Z.ones 40). rewrite Z.land_ones by lia. apply Z.mod_pos_bound. lia. }
  pose proof (bits_Len64_bound k 40 Bk ltac:(lia)) as Bb. set (lv := Z.to_nat _). assert (Bl : (1 <= lv <= 41)%nat) by (unfold lv, skipListMaxLevel; lia).
  clearbody lv. clear - Bl. destruct (cut_level_ok len lv) as [[L E]|L]; unfold skipListMaxLevel; destruct (Nat.ltb_spec 40 (cut_level lv len)); lia.
Qed.
Lemma randomLevel_len r len : (randomLevel r len <= 3)%nat \/ 2 ^ Z.of_nat (randomLevel r len - 3) <= len.
Proof.
  unfold randomLevel. set (lv := Z.to_nat _). clearbody lv. destruct (cut_level_len len lv) as [L|L]; destruct (Nat.ltb_spec skipListMaxLevel (cut_level lv len)); auto; [lia|].
  right. eapply Z.le_trans; [|exact L]. apply Z.pow_le_mono_r; lia.
Qed.
Lemma nexts_len_ok lv : (1 <= lv <= skipListMaxLevel)%nat -> nexts_len lv = Some lv.
Proof.
  unfold skipListMaxLevel. intros B. do 41 (destruct lv as [|lv]; [first [reflexivity|lia]|]). lia.
Qed.
Opaque skipListMaxLevel.

Section SL.
Context {K V : Type}.
Notation heap := (list (slnode K V)).
Implicit Types (h : heap) (l : sklist) (a b i j : nat).

(** *** Running the primitives *)
Lemma bind_eq {S A B} (m : M S A) (k : A -> M S B) s (v : A) s' : m s = (Ok v, s') -> (x <- m ;; k x) s = k v s'.
Proof. intros E. unfold bind. now rewrite E. Qed.
Lemma bind_hget {A B} (f : sklist -> A) (k : A -> P (slnode K V) sklist B) h l : (x <- hget f ;; k x) (h, l) = k (f l) (h, l).
Proof. reflexivity. Qed.
Lemma bind_hmod {B} (f : sklist -> sklist) (k : unit -> P (slnode K V) sklist B) h l : (x <- hmod f ;; k x) (h, l) = k tt (h, f l).
Proof. reflexivity. Qed.
Lemma bind_ret {S A B} (v : A) (k : A -> M S B) s : (x <- ret v ;; k x) s = k v s.
Proof. reflexivity. Qed.
Lemma bind_pnew {B} n (k : ptr -> P (slnode K V) sklist B) h l : (x <- pnew n ;; k x) (h, l) = k (Some (length h)) (h ++ [n], l).
Proof. reflexivity. Qed.
Lemma bind_fuel {B} (k : nat -> P (slnode K V) sklist B) h l : (x <- heap_fuel ;; k x) (h, l) = k (S (length h)) (h, l).
Proof. reflexivity. Qed.

(** *** Nodes that must stay as they are *)
(** A frame names nodes outside the list: the nodes allocated before it, and nodes
    taken out of it since. *)
Definition keeps (fr : nat -> option (slnode K V)) h : Prop := forall a n, fr a = Some n -> nth_error h a = Some n.
Lemma keeps_refl h : keeps (nth_error h) h.
Proof. red; auto. Qed.
Lemma keeps_app fr h n : keeps fr h -> keeps fr (h ++ [n]).
Proof. intros Kp a x E. apply nth_app_old. auto. Qed.
Lemma keeps_upd fr h a n : keeps fr h -> fr a = None -> keeps fr (upd a n h).
Proof. intros Kp L b x E. rewrite nth_error_upd_ne; auto. congruence. Qed.
Lemma keeps_new fr h : keeps fr h -> fr (length h) = None.
Proof. intros Kp. destruct (fr (length h)) eqn:E; auto. apply Kp, nth_lt in E. lia. Qed.

(** *** Views of the heap *)
Definition nx h a i : option ptr := match nth_error h a with Some n => nth_error (n_next n) i | None => None end.
Definition nd h a : option (K * V * nat) := option_map (fun n => (n_key n, n_value n, length (n_next n))) (nth_error h a).
Definition sn a i (q : ptr) h : heap := match nth_error h a with Some n => upd a (mkSLNode (n_key n) (n_value n) (upd i q (n_next n))) h | None => h end.
Definition sv a (v : V) h : heap := match nth_error h a with Some n => upd a (mkSLNode (n_key n) v (n_next n)) h | None => h end.

Lemma nd_lt h a x : nd h a = Some x -> (a < length h)%nat.
Proof. unfold nd. destruct (nth_error h a) eqn:E; [|discriminate]. intros _. now apply nth_lt in E. Qed.
Lemma nx_lt h a i x : nx h a i = Some x -> (a < length h)%nat.
Proof. unfold nx. destruct (nth_error h a) eqn:E; [|discriminate]. intros _. now apply nth_lt in E. Qed.
Lemma len_sn a i q h : length (sn a i q h) = length h.
Proof. unfold sn. destruct (nth_error h a); auto. apply upd_length. Qed.
Lemma len_sv a v h : length (sv a v h) = length h.
Proof. unfold sv. destruct (nth_error h a); auto. apply upd_length. Qed.
Lemma nd_nx h a k v n i : nd h a = Some (k, v, n) -> (i < n)%nat -> exists q, nx h a i = Some q.
Proof.
  unfold nd, nx. destruct (nth_error h a) as [x|]; [|discriminate]. cbn. intros E L. injection E as _ _ <-.
  destruct (nth_error (n_next x) i) eqn:E; eauto. apply nth_error_None in E. lia.
Qed.
Lemma nx_sn a i q h b j p : nx h a i = Some p -> nx (sn a i q h) b j = if Nat.eqb a b && Nat.eqb i j then Some q else nx h b j.
Proof.
  unfold nx, sn. destruct (nth_error h a) as [n|] eqn:E; [|discriminate]. intros Ei. pose proof (nth_lt _ _ _ E) as L. rewrite nth_upd by auto.
  destruct (Nat.eqb_spec a b) as [->|]; cbn [andb]; auto. cbn. rewrite nth_upd by (now apply nth_lt in Ei). now rewrite E.
Qed.
Lemma nd_sn a i q h b : nd (sn a i q h) b = nd h b.
Proof.
  unfold nd, sn. destruct (nth_error h a) as [n|] eqn:E; auto. rewrite nth_upd by (now apply nth_lt in E).
  destruct (Nat.eqb_spec a b) as [->|]; auto. rewrite E. cbn. now rewrite upd_length.
Qed.
Lemma nx_sv a v h b j : nx (sv a v h) b j = nx h b j.
Proof.
  unfold nx, sv. destruct (nth_error h a) as [n|] eqn:E; auto. rewrite nth_upd by (now apply nth_lt in E).
  destruct (Nat.eqb_spec a b) as [->|]; auto. now rewrite E.
Qed.
Lemma nd_sv a v h b k w n : nd h a = Some (k, w, n) -> nd (sv a v h) b = if Nat.eqb a b then Some (k, v, n) else nd h b.
Proof.
  unfold nd, sv. destruct (nth_error h a) as [x|] eqn:E; [|discriminate]. cbn. intros E2. injection E2 as <- _ <-. rewrite nth_upd by (now apply nth_lt in E).
  destruct (Nat.eqb_spec a b) as [->|]; auto.
Qed.
Lemma nx_new h n b j : nx (h ++ [n]) b j = if Nat.eqb b (length h) then nth_error (n_next n) j else nx h b j.
Proof.
  unfold nx. destruct (Nat.eqb_spec b (length h)) as [->|NE]; [now rewrite nth_app_new|].
  destruct (Nat.lt_ge_cases b (length h)) as [L|L]; [now rewrite nth_error_app1|].
  assert (E : nth_error (h ++ [n]) b = None) by (apply nth_error_None; rewrite app_length; cbn; lia).
  assert (E2 : nth_error h b = None) by (apply nth_error_None; lia). now rewrite E, E2.
Qed.
Lemma nd_new h n b : nd (h ++ [n]) b = if Nat.eqb b (length h) then Some (n_key n, n_value n, length (n_next n)) else nd h b.
Proof.
  unfold nd. destruct (Nat.eqb_spec b (length h)) as [->|NE]; [now rewrite nth_app_new|].
  destruct (Nat.lt_ge_cases b (length h)) as [L|L]; [now rewrite nth_error_app1|].
  assert (E : nth_error (h ++ [n]) b = None) by (apply nth_error_None; rewrite app_length; cbn; lia).
  assert (E2 : nth_error h b = None) by (apply nth_error_None; lia). now rewrite E, E2.
Qed.
Lemma keeps_sn fr h a i q : keeps fr h -> fr a = None -> keeps fr (sn a i q h).
Proof. unfold sn. destruct (nth_error h a); auto. apply keeps_upd. Qed.
Lemma keeps_sv fr h a v : keeps fr h -> fr a = None -> keeps fr (sv a v h).
Proof. unfold sv. destruct (nth_error h a); auto. apply keeps_upd. Qed.

Lemma ld_key_ok h l a k v n : nd h a = Some (k, v, n) -> ld_key (Some a) (h, l) = (Ok k, (h, l)).
Proof. unfold nd. destruct (nth_error h a) as [x|] eqn:E; [|discriminate]. cbn. intros E2. injection E2 as <- <- <-. unfold ld_key. now rewrite (bind_eq _ _ _ _ _ (pload_ok h l a x E)). Qed.
Lemma ld_value_ok h l a k v n : nd h a = Some (k, v, n) -> ld_value (Some a) (h, l) = (Ok v, (h, l)).
Proof. unfold nd. destruct (nth_error h a) as [x|] eqn:E; [|discriminate]. cbn. intros E2. injection E2 as <- <- <-. unfold ld_value. now rewrite (bind_eq _ _ _ _ _ (pload_ok h l a x E)). Qed.
Lemma ld_next_ok h l a i q : nx h a i = Some q -> ld_next (Some a) i (h, l) = (Ok q, (h, l)).
Proof. unfold nx. destruct (nth_error h a) as [x|] eqn:E; [|discriminate]. intros E2. unfold ld_next. rewrite (bind_eq _ _ _ _ _ (pload_ok h l a x E)), E2. reflexivity. Qed.
Lemma st_next_ok h l a i q p : nx h a i = Some p -> st_next (Some a) i q (h, l) = (Ok tt, (sn a i q h, l)).
Proof.
  unfold nx, sn. destruct (nth_error h a) as [x|] eqn:E; [|discriminate]. intros E2. unfold st_next. rewrite (bind_eq _ _ _ _ _ (pload_ok h l a x E)).
  assert (Nat.ltb i (length (n_next x)) = true) as -> by (apply Nat.ltb_lt; now apply nth_lt in E2). now rewrite (pmod_ok h l a x _ E).
Qed.
Lemma st_value_ok h l a v x : nd h a = Some x -> st_value (Some a) v (h, l) = (Ok tt, (sv a v h, l)).
Proof. unfold nd, sv. destruct (nth_error h a) as [y|] eqn:E; [|discriminate]. intros _. unfold st_value. now rewrite (pmod_ok h l a y _ E). Qed.

(** *** Cells: address, height, key, value of the linked nodes in order *)
Record cell := mkC { ca : nat; ch : nat; ck : K; cv : V }.
Implicit Types (c d : cell) (cs X Y ps : list cell).
Definition addrs cs := map ca cs.
Definition kvs cs : list (K * V) := map (fun c => (ck c, cv c)) cs.
Definition tall i cs := filter (fun c => Nat.ltb i (ch c)) cs.
Fixpoint lasta a cs : nat := match cs with [] => a | c :: r => lasta (ca c) r end.
Definition firstp cs : ptr := match cs with [] => None | c :: _ => Some (ca c) end.
Fixpoint path h i a cs : Prop := match cs with [] => True | c :: r => nx h a i = Some (Some (ca c)) /\ path h i (ca c) r end.
Definition chain h i a cs : Prop := path h i a cs /\ nx h (lasta a cs) i = Some None.
Definition cellok h c : Prop := nd h (ca c) = Some (ck c, cv c, ch c).

Lemma lasta_app a X Y : lasta a (X ++ Y) = lasta (lasta a X) Y.
Proof. revert a. induction X as [|c X IH]; intros a; cbn; auto. Qed.
Lemma lasta_in a X : In (lasta a X) (a :: addrs X).
Proof. revert a. induction X as [|c X IH]; intros a; [now left|]. right. apply IH. Qed.
Lemma tall_app i X Y : tall i (X ++ Y) = tall i X ++ tall i Y.
Proof. apply filter_app. Qed.
Lemma tall_in i X c : In c (tall i X) <-> In c X /\ (i < ch c)%nat.
Proof. unfold tall. rewrite filter_In, Nat.ltb_lt. tauto. Qed.
Lemma addrs_tall_in i X a : In a (addrs (tall i X)) -> In a (addrs X).
Proof. unfold addrs. rewrite !in_map_iff. intros (c & <- & I). apply tall_in in I as [I _]. eauto. Qed.
Lemma path_app h i X Y : forall a, path h i a (X ++ Y) <-> path h i a X /\ path h i (lasta a X) Y.
Proof. induction X as [|c X IH]; intros a; cbn; [tauto|]. rewrite IH. tauto. Qed.
Lemma chain_app h i a X Y : chain h i a (X ++ Y) <-> path h i a X /\ chain h i (lasta a X) Y.
Proof. unfold chain. rewrite path_app, lasta_app. tauto. Qed.
Lemma chain_first h i a Y : chain h i a Y -> nx h a i = Some (firstp Y).
Proof. destruct Y as [|c Y]; intros [P N]; cbn in *; tauto. Qed.
Lemma chain_cons h i a c Y : chain h i a (c :: Y) <-> nx h a i = Some (Some (ca c)) /\ chain h i (ca c) Y.
Proof. unfold chain. cbn. tauto. Qed.
Lemma path_frame h h' i X : forall a, NoDup (a :: addrs X) -> (forall x, In x (a :: addrs X) -> x <> lasta a X -> nx h' x i = nx h x i) -> path h i a X -> path h' i a X.
Proof.
  induction X as [|c X IH]; intros a ND F; cbn; auto. intros [N Pt]. cbn [addrs map] in ND.
  split.
  - rewrite F; auto; [now left|]. cbn [lasta]. apply NoDup_cons_iff in ND as [NI _]. intros ->. apply NI. apply lasta_in.
  - apply IH; auto; [now inversion ND|]. intros x I NE. apply F; auto. now right.
Qed.
Lemma chain_frame h h' i X a : (forall x, In x (a :: addrs X) -> nx h' x i = nx h x i) -> chain h i a X -> chain h' i a X.
Proof.
  intros F [Pt N]. split.
  - revert a F N Pt. induction X as [|c X IH]; intros a F N; cbn; auto. intros [N1 Pt]. split; [rewrite F; auto; now left|]. apply IH; auto. intros x I. apply F. now right.
  - rewrite F; auto. apply lasta_in.
Qed.
Lemma nodup_app_addrs a X Y : NoDup (a :: addrs (X ++ Y)) -> NoDup (a :: addrs X) /\ NoDup (lasta a X :: addrs Y) /\ (forall x, In x (addrs Y) -> ~ In x (a :: addrs X)).
Proof.
  revert a. induction X as [|c X IH]; intros a; cbn [app addrs map lasta].
  - intros ND. split; [repeat constructor; auto|]. split; auto. intros x I [->|[]]. now inversion ND.
  - intros ND. apply NoDup_cons_iff in ND as [NI ND]. destruct (IH _ ND) as (N1 & N2 & N3). split; [|split; auto].
    + constructor; auto. intros I. apply NI. cbn in *. unfold addrs. rewrite map_app, in_app_iff. tauto.
    + intros x I [->|I2]; [|exact (N3 x I I2)]. apply NI. right. unfold addrs. rewrite map_app, in_app_iff. auto.
Qed.
(** Linking node n between X and Y at level i. *)
Lemma chain_insert h i a X c Y p : chain h i a (X ++ Y) -> NoDup (a :: addrs (X ++ Y)) -> ~ In (ca c) (a :: addrs (X ++ Y)) -> nx h (ca c) i = Some p ->
  chain (sn (lasta a X) i (Some (ca c)) (sn (ca c) i (firstp Y) h)) i a (X ++ c :: Y).
Proof.
  intros Ch ND NI Np. apply chain_app in Ch as [Pt Ch]. destruct (nodup_app_addrs _ _ _ ND) as (N1 & N2 & N3). set (m := lasta a X) in *.
  assert (NE : m <> ca c). { intros E. apply NI. rewrite <- E. unfold addrs. rewrite map_app. pose proof (lasta_in a X) as I. fold m in I. destruct I as [I|I]; [now left|]. right. apply in_app_iff. auto. }
  assert (Nm : nx (sn (ca c) i (firstp Y) h) m i = Some (firstp Y)).
  { rewrite (nx_sn _ _ _ _ _ _ _ Np). destruct (Nat.eqb_spec (ca c) m); [congruence|]. now apply chain_first. }
  apply chain_app. split.
  - apply (path_frame h); auto. intros x I NEx. fold m in NEx. rewrite (nx_sn _ _ _ _ _ _ _ Nm), (nx_sn _ _ _ _ _ _ _ Np).
    destruct (Nat.eqb_spec m x); [congruence|]. destruct (Nat.eqb_spec (ca c) x); [|reflexivity]. exfalso. apply NI. subst x. unfold addrs. rewrite map_app.
    destruct I as [->|I]; [now left|]. right. apply in_app_iff. auto.
  - fold m. apply chain_cons. split.
    + rewrite (nx_sn _ _ _ _ _ _ _ Nm), !Nat.eqb_refl. reflexivity.
    + assert (Nc : nx (sn m i (Some (ca c)) (sn (ca c) i (firstp Y) h)) (ca c) i = Some (firstp Y)).
      { rewrite (nx_sn _ _ _ _ _ _ _ Nm), (nx_sn _ _ _ _ _ _ _ Np), !Nat.eqb_refl. destruct (Nat.eqb_spec m (ca c)); [congruence|]. reflexivity. }
      destruct Y as [|d Y]; [split; [exact I|exact Nc]|]. apply chain_cons. split; [exact Nc|]. apply chain_cons in Ch as [_ Ch].
      apply (chain_frame h); auto. intros x I. rewrite (nx_sn _ _ _ _ _ _ _ Nm), (nx_sn _ _ _ _ _ _ _ Np).
      assert (I2 : In x (addrs (d :: Y))) by exact I.
      destruct (Nat.eqb_spec m x); [subst x; exfalso; now inversion N2|]. destruct (Nat.eqb_spec (ca c) x); [|reflexivity].
      exfalso. subst x. apply NI. right. unfold addrs. rewrite map_app. apply in_app_iff. auto.
Qed.
(** Unlinking. *)
Lemma chain_remove h i a X c Y : chain h i a (X ++ c :: Y) -> NoDup (a :: addrs (X ++ c :: Y)) ->
  chain (sn (lasta a X) i (firstp Y) h) i a (X ++ Y).
Proof.
  intros Ch ND. apply chain_app in Ch as [Pt Ch]. destruct (nodup_app_addrs _ _ _ ND) as (N1 & N2 & N3). set (m := lasta a X) in *.
  apply chain_cons in Ch as [Nm Ch]. apply chain_app. split.
  - apply (path_frame h); auto. intros x I NE. fold m in NE. rewrite (nx_sn _ _ _ _ _ _ _ Nm). destruct (Nat.eqb_spec m x); [congruence|reflexivity].
  - fold m. assert (Nm2 : nx (sn m i (firstp Y) h) m i = Some (firstp Y)) by (rewrite (nx_sn _ _ _ _ _ _ _ Nm), !Nat.eqb_refl; reflexivity).
    destruct Y as [|d Y]; [split; [exact I|exact Nm2]|]. apply chain_cons. split; [exact Nm2|]. apply chain_cons in Ch as [_ Ch].
    apply (chain_frame h); auto. intros x I. rewrite (nx_sn _ _ _ _ _ _ _ Nm). destruct (Nat.eqb_spec m x); [|reflexivity]. subst x. exfalso.
    apply NoDup_cons_iff in N2 as [NI _]. apply NI. right. exact I.
Qed.

(** *** Searching *)
Section Search.
Variables hit stop : K -> bool.
Definition pass c : Prop := hit (ck c) = false /\ stop (ck c) = false.
Definition blocks cs : Prop := match cs with [] => True | c :: _ => hit (ck c) = false /\ stop (ck c) = true end.
Lemma scan_ok h l i D : forall fuel prev, chain h i prev D -> Forall (cellok h) D -> (length D < fuel)%nat ->
  (exists C c D', D = C ++ c :: D' /\ Forall pass C /\ hit (ck c) = true /\ scan hit stop fuel i (Some prev) (firstp D) (h, l) = (Ok (inl (Some (ca c))), (h, l))) \/
  (exists C D', D = C ++ D' /\ Forall pass C /\ blocks D' /\ scan hit stop fuel i (Some prev) (firstp D) (h, l) = (Ok (inr (Some (lasta prev C))), (h, l))).
Proof.
  induction D as [|c D IH]; intros fuel prev Ch F L; (destruct fuel as [|fuel]; [cbn in L; lia|]); cbn [scan firstp is_nil].
  - right. exists [], []. repeat split; auto.
  - inversion F as [|? ? F1 F2]; subst. rewrite (bind_eq _ _ _ _ _ (ld_key_ok h l _ _ _ _ F1)).
    destruct (hit (ck c)) eqn:Eh; [left; exists [], c, D; repeat split; auto|].
    destruct (stop (ck c)) eqn:Es; [right; exists [], (c :: D); repeat split; auto|].
    apply chain_cons in Ch as [N Ch]. rewrite (bind_eq _ _ _ _ _ (ld_next_ok h l _ _ _ (chain_first _ _ _ _ Ch))).
    destruct (IH fuel (ca c) Ch F2) as [(C & e & D' & -> & FC & He & E)|(C & D' & -> & FC & B & E)]; [cbn in L; lia| |].
    + left. exists (c :: C), e, D'. repeat split; auto. constructor; auto. split; auto.
    + right. exists (c :: C), D'. repeat split; auto. constructor; auto. split; auto.
Qed.

Definition ends i cs : Prop := cs = [] \/ exists cs' c, cs = cs' ++ [c] /\ (i <= ch c)%nat.
Lemma ends_tall i cs j a : ends i cs -> (j < i)%nat -> lasta a (tall j cs) = lasta a cs.
Proof.
  intros [->|(cs' & c & -> & Lc)] Lj; auto. rewrite tall_app, !lasta_app. cbn [tall filter]. destruct (Nat.ltb_spec j (ch c)); [reflexivity|lia].
Qed.
Lemma ends_le i j cs : (j <= i)%nat -> ends i cs -> ends j cs.
Proof. intros L [->|(cs' & c & -> & Lc)]; [now left|]. right. exists cs', c. split; auto. lia. Qed.
Lemma tall_split i B : forall C D, tall i B = C ++ D -> exists B1 B2, B = B1 ++ B2 /\ tall i B1 = C /\ tall i B2 = D /\ (forall a, lasta a B1 = lasta a C) /\
  (B1 = [] \/ exists B1' c, B1 = B1' ++ [c] /\ In c C).
Proof.
  induction B as [|b B IH]; intros C D E.
  - destruct C; [|discriminate]. exists [], []. cbn in *. repeat split; auto.
  - destruct C as [|c C]; [exists [], (b :: B); repeat split; auto|]. cbn [tall filter] in E. destruct (Nat.ltb i (ch b)) eqn:Eb.
    + cbn [app] in E. injection E as <- E. destruct (IH C D E) as (B1 & B2 & -> & T1 & T2 & La & En). exists (b :: B1), B2. split; auto. split; [cbn; rewrite Eb; unfold tall in T1; now rewrite T1|]. split; auto.
      split; [intros a; cbn; apply La|]. right. destruct En as [->|(B1' & c & -> & I)]; [exists [], b; split; auto; now left|exists (b :: B1'), c; split; auto; now right].
    + destruct (IH (c :: C) D E) as (B1 & B2 & -> & T1 & T2 & La & En). exists (b :: B1), B2. split; auto. split; [cbn; rewrite Eb; exact T1|]. split; auto.
      split; [intros a; cbn; rewrite La; reflexivity|]. right. destruct En as [->|(B1' & c' & -> & I)]; [discriminate T1|]. exists (b :: B1'), c'. auto.
Qed.
Lemma tall_tall i j B : (i <= j)%nat -> tall j (tall i B) = tall j B.
Proof.
  intros L. unfold tall. induction B as [|b B IH]; cbn; auto. destruct (Nat.ltb_spec i (ch b)); cbn; [now rewrite IH|].
  destruct (Nat.ltb_spec j (ch b)); [lia|auto].
Qed.
Definition last_pass cs : Prop := cs = [] \/ exists cs' c, cs = cs' ++ [c] /\ pass c.

Context (h : heap) (hd : nat) (ps : list cell).
Context (Hcells : Forall (cellok h) ps) (Hch : forall i, (i < skipListMaxLevel)%nat -> chain h i hd (tall i ps)) (Hfuel : (length ps < S (length h))%nat).

(** One level, from the split A ++ B of ps. *)
Lemma level_step l i A B : ps = A ++ B -> ends (S i) A -> (i < skipListMaxLevel)%nat -> exists cur, nx h (lasta hd A) i = Some cur /\
  ((exists c, In c B /\ hit (ck c) = true /\ scan hit stop (S (length h)) i (Some (lasta hd A)) cur (h, l) = (Ok (inl (Some (ca c))), (h, l))) \/
   (exists B1 B2, B = B1 ++ B2 /\ scan hit stop (S (length h)) i (Some (lasta hd A)) cur (h, l) = (Ok (inr (Some (lasta hd (A ++ B1)))), (h, l)) /\
      ends (S i) (A ++ B1) /\ last_pass B1 /\ blocks (tall i B2) /\ (forall j, (i < j)%nat -> blocks (tall j B) -> tall j B1 = []))).
Proof using Hcells Hch Hfuel.
  intros -> En Li. pose proof (Hch i Li) as Ch. rewrite tall_app in Ch. apply chain_app in Ch as [_ Ch]. rewrite (ends_tall (S i)) in Ch by (auto; lia).
  exists (firstp (tall i B)). split; [now apply chain_first|].
  assert (FB : Forall (cellok h) (tall i B)).
  { apply Forall_forall. intros c I. apply tall_in in I as [I _]. rewrite Forall_forall in Hcells. apply Hcells. apply in_app_iff. auto. }
  assert (LB : (length (tall i B) < S (length h))%nat).
  { assert (K1 : (length (tall i B) <= length B)%nat). { unfold tall. clear. induction B as [|b B IH]; cbn; [lia|]. destruct (Nat.ltb i (ch b)); cbn; lia. }
    rewrite app_length in Hfuel. lia. }
  destruct (scan_ok h l i (tall i B) (S (length h)) (lasta hd A) Ch FB LB) as [(C & c & D & ED & FC & Hc & E)|(C & D & ED & FC & Bl & E)].
  - left. exists c. split; auto. assert (I : In c (tall i B)) by (rewrite ED; apply in_app_iff; right; now left). now apply tall_in in I as [I _].
  - right. destruct (tall_split i B C D ED) as (B1 & B2 & -> & T1 & T2 & La & E1). exists B1, B2. split; auto.
    rewrite E, lasta_app, La. split; auto.
    assert (Tall : forall c, In c C -> (i < ch c)%nat /\ pass c).
    { intros c I. split; [|now rewrite Forall_forall in FC; apply FC]. rewrite <- T1 in I. now apply tall_in in I as [_ I]. }
    split; [|split; [|split]].
    + destruct E1 as [->|(B1' & c & -> & I)]; [now rewrite app_nil_r|]. right. exists (A ++ B1'), c. rewrite app_assoc. split; auto. destruct (Tall c I). lia.
    + destruct E1 as [->|(B1' & c & -> & I)]; [now left|]. right. exists B1', c. split; auto. now apply Tall.
    + now rewrite T2.
    + intros j Lj Bj. rewrite tall_app in Bj. rewrite <- (tall_tall i j B1), T1 in * by lia. destruct (tall j C) as [|c r] eqn:Et; auto. exfalso.
      cbn in Bj. assert (I : In c (tall j C)) by (rewrite Et; now left). apply tall_in in I as [I _]. destruct (Tall c I) as [_ [_ P2]]. destruct Bj. congruence.
Qed.

Definition found c (r : ptr + ptr) : Prop := In c ps /\ hit (ck c) = true /\ r = inl (Some (ca c)).
Lemma descend_ok l lvl : forall A B, ps = A ++ B -> ends lvl A -> (lvl <= skipListMaxLevel)%nat ->
  (exists c, In c B /\ hit (ck c) = true /\ descend hit stop (S (length h)) lvl (Some (lasta hd A)) (h, l) = (Ok (inl (Some (ca c))), (h, l))) \/
  (exists B1 B2, B = B1 ++ B2 /\ descend hit stop (S (length h)) lvl (Some (lasta hd A)) (h, l) = (Ok (inr (Some (lasta hd (A ++ B1)))), (h, l)) /\
     last_pass B1 /\ (forall j, (j < lvl)%nat -> blocks (tall j B2)) /\ (forall j, (lvl <= j)%nat -> blocks (tall j B) -> tall j B1 = [])).
Proof using Hcells Hch Hfuel.
  induction lvl as [|i IH]; intros A B Eps En Ll; cbn [descend].
  - right. exists [], B. rewrite app_nil_r. repeat split; auto; [now left|]. intros j L. lia.
  - destruct (level_step l i A B Eps En Ll) as (cur & Nc & [(c & I & Hc & E)|(B1 & B2 & EB & E & En1 & LP & Bl & Cl)]);
      rewrite (bind_eq _ _ _ _ _ (ld_next_ok h l _ _ _ Nc)), (bind_eq _ _ _ _ _ E).
    + left. exists c. auto.
    + subst B. destruct (IH (A ++ B1) B2) as [(c & I & Hc & E2)|(B3 & B4 & EB & E2 & LP2 & Bl2 & Cl2)]; [now rewrite <- app_assoc|apply ends_le with (S i); auto|lia| |].
      * left. exists c. split; [apply in_app_iff; auto|]. auto.
      * right. exists (B1 ++ B3), B4. subst B2. rewrite <- !app_assoc in *. split; auto. split; auto. split; [|split].
        -- destruct LP2 as [->|(B' & c & -> & Pc)]; [now rewrite app_nil_r|]. right. exists (B1 ++ B'), c. rewrite app_assoc. auto.
        -- intros j Lj. destruct (Nat.eq_dec j i) as [->|]; [|apply Bl2; lia]. specialize (Cl2 i (le_n i) Bl). rewrite tall_app, Cl2 in Bl. exact Bl.
        -- intros j Lj Bj. assert (T1 : tall j B1 = []) by (apply Cl; auto; lia). rewrite tall_app, T1 in *. apply Cl2; [lia|exact Bj].
Qed.
Lemma descend_prevs_ok lvl : forall l A B, ps = A ++ B -> ends lvl A -> (lvl <= skipListMaxLevel)%nat -> (lvl <= sl_level l)%nat -> length (sl_prevs l) = skipListMaxLevel ->
  (exists c pc, In c B /\ hit (ck c) = true /\ length pc = skipListMaxLevel /\
     descend_prevs hit stop (S (length h)) (sl_level l) lvl (Some (lasta hd A)) (h, l) = (Ok (inl (Some (ca c))), (h, set_sl_prevs pc l))) \/
  (exists B1 B2 pc, B = B1 ++ B2 /\ length pc = skipListMaxLevel /\
     descend_prevs hit stop (S (length h)) (sl_level l) lvl (Some (lasta hd A)) (h, l) = (Ok (inr (Some (lasta hd (A ++ B1)))), (h, set_sl_prevs pc l)) /\
     last_pass B1 /\ (forall j, (j < lvl)%nat -> blocks (tall j B2)) /\ (forall j, (lvl <= j)%nat -> blocks (tall j B) -> tall j B1 = []) /\
     (forall j, (j < lvl)%nat -> nth_error pc j = Some (Some (lasta hd (tall j (A ++ B1))))) /\ (forall j, (lvl <= j)%nat -> nth_error pc j = nth_error (sl_prevs l) j)).
Proof using Hcells Hch Hfuel.
  induction lvl as [|i IH]; intros l A B Eps En Ll Lv Lp; cbn [descend_prevs].
  - right. exists [], B, (sl_prevs l). rewrite app_nil_r. split; auto. split; auto. split; [destruct l; reflexivity|]. split; [now left|]. repeat split; auto; intros j L; lia.
  - destruct (level_step l i A B Eps En Ll) as (cur & Nc & [(c & I & Hc & E)|(B1 & B2 & EB & E & En1 & LP & Bl & Cl)]);
      rewrite (bind_eq _ _ _ _ _ (ld_next_ok h l _ _ _ Nc)), (bind_eq _ _ _ _ _ E).
    + left. exists c, (sl_prevs l). repeat split; auto. destruct l; reflexivity.
    + subst B. set (q := lasta hd (A ++ B1)) in *.
      assert (ES : prevs_set (K := K) (V := V) (sl_level l) i (Some q) (h, l) = (Ok tt, (h, set_sl_prevs (upd i (Some q) (sl_prevs l)) l))).
      { unfold prevs_set. rewrite bind_hget. assert (Nat.ltb i (sl_level l) = true) as -> by (apply Nat.ltb_lt; lia). reflexivity. }
      rewrite (bind_eq _ _ _ _ _ ES). change (sl_level l) with (sl_level (set_sl_prevs (upd i (Some q) (sl_prevs l)) l)).
      destruct (IH (set_sl_prevs (upd i (Some q) (sl_prevs l)) l) (A ++ B1) B2) as [(c & pc & I & Hc & Lpc & E2)|(B3 & B4 & pc & EB & Lpc & E2 & LP2 & Bl2 & Cl2 & P1 & P2)];
        [now rewrite <- app_assoc|apply ends_le with (S i); auto|lia|cbn; lia|cbn; now rewrite upd_length| |].
      * left. exists c, pc. split; [apply in_app_iff; auto|]. repeat split; auto.
      * right. exists (B1 ++ B3), B4, pc. subst B2. rewrite <- !app_assoc in *. split; auto. split; auto. split; auto.
        pose proof (Cl2 i (le_n i) Bl) as T3.
        split; [|split; [|split; [|split]]].
        -- destruct LP2 as [->|(B' & c & -> & Pc)]; [now rewrite app_nil_r|]. right. exists (B1 ++ B'), c. rewrite app_assoc. auto.
        -- intros j Lj. destruct (Nat.eq_dec j i) as [->|]; [|apply Bl2; lia]. rewrite tall_app, T3 in Bl. exact Bl.
        -- intros j Lj Bj. assert (T1 : tall j B1 = []) by (apply Cl; auto; lia). rewrite tall_app, T1 in *. apply Cl2; [lia|exact Bj].
        -- intros j Lj. destruct (Nat.eq_dec j i) as [->|]; [|apply P1; lia]. rewrite P2 by lia. cbn [sl_prevs set_sl_prevs]. rewrite nth_error_upd_eq by (rewrite Lp; lia).
           rewrite app_assoc, tall_app, T3, app_nil_r, (ends_tall (S i)) by (auto; lia). reflexivity.
        -- intros j Lj. rewrite P2 by lia. cbn [sl_prevs set_sl_prevs]. apply nth_error_upd_ne. lia.
Qed.
End Search.

(** *** The state of a list whose linked nodes are ps *)
Record rep (fr : nat -> option (slnode K V)) (hd : nat) (ps : list cell) (s : heap * sklist) : Prop := mkRep {
  r_keeps : keeps fr (fst s);
  r_hd : exists k v, nd (fst s) hd = Some (k, v, skipListMaxLevel);
  r_cells : Forall (cellok (fst s)) ps;
  r_chain : forall i, (i < skipListMaxLevel)%nat -> chain (fst s) i hd (tall i ps);
  r_nodup : NoDup (hd :: addrs ps);
  r_above : forall a, In a (hd :: addrs ps) -> fr a = None;
  r_level : (1 <= sl_level (snd s) <= skipListMaxLevel)%nat;
  r_height : forall c, In c ps -> (1 <= ch c <= sl_level (snd s))%nat;
  r_exact : sl_level (snd s) = 1%nat \/ exists c, In c ps /\ ch c = sl_level (snd s);
  r_prevs : length (sl_prevs (snd s)) = skipListMaxLevel;
  r_len : sl_len (snd s) = zlen ps;
  r_head : sl_head (snd s) = Some hd }.

Lemma tall0 ps : (forall c, In c ps -> (1 <= ch c)%nat) -> tall 0 ps = ps.
Proof.
  induction ps as [|c ps IH]; intros H; cbn; auto. destruct (Nat.ltb_spec 0 (ch c)); [|specialize (H c (or_introl eq_refl)); lia].
  f_equal. apply IH. intros d I. apply H. now right.
Qed.
Lemma rep_fuel fr hd ps h l : rep fr hd ps (h, l) -> (length ps < S (length h))%nat.
Proof.
  intros R. rewrite <- (map_length ca ps). apply nodup_fuel; [pose proof (r_nodup _ _ _ _ R) as ND; now inversion ND|].
  intros a I. apply in_map_iff in I as (c & <- & I). pose proof (r_cells _ _ _ _ R) as F. rewrite Forall_forall in F. eapply nd_lt. exact (F c I).
Qed.
Lemma rep_chain0 fr hd ps h l : rep fr hd ps (h, l) -> chain h 0 hd ps.
Proof.
  intros R. rewrite <- (tall0 ps) by (intros c I; apply (r_height _ _ _ _ R c I)). apply (r_chain _ _ _ _ R). pose proof (r_level _ _ _ _ R). lia.
Qed.
Lemma rep_prevs fr hd ps h l pc : rep fr hd ps (h, l) -> length pc = skipListMaxLevel -> rep fr hd ps (h, set_sl_prevs pc l).
Proof. intros [] L. constructor; cbn in *; auto. Qed.
(** The split a failed search ends with. *)
Definition parts (eqk gtk : K -> K -> bool) (key : K) (A B : list cell) : Prop :=
  last_pass (fun k => eqk k key) (fun k => gtk k key) A /\ blocks (fun k => eqk k key) (fun k => gtk k key) B.

Section Impl.
Variables eqk gtk : K -> K -> bool.
Definition gek (a b : K) := gtk a b || eqk a b.
Definition remove_parts key A B : Prop := last_pass (fun _ => false) (fun k => gek k key) A /\ blocks (fun _ => false) (fun k => gek k key) B.
Definition prevs_ok (level : nat) pc (hd : nat) A : Prop := length pc = skipListMaxLevel /\ forall j, (j < level)%nat -> nth_error pc j = Some (Some (lasta hd (tall j A))).
(** What Insert, Remove, Find, ... rely on. *)
Record impl_spec (impl : @slimpl K V) : Prop := mkSpec {
  sp_find : forall fr hd ps h l key, rep fr hd ps (h, l) ->
    (exists c, In c ps /\ eqk (ck c) key = true /\ findNode impl key (h, l) = (Ok (Some (ca c)), (h, l))) \/
    (exists A B, ps = A ++ B /\ parts eqk gtk key A B /\ findNode impl key (h, l) = (Ok None, (h, l)));
  sp_lower : forall fr hd ps h l key, rep fr hd ps (h, l) ->
    (exists A c B, ps = A ++ c :: B /\ eqk (ck c) key = true /\ lowerBound impl key (h, l) = (Ok (Some (ca c)), (h, l))) \/
    (exists A B, ps = A ++ B /\ parts eqk gtk key A B /\ lowerBound impl key (h, l) = (Ok (firstp B), (h, l)));
  sp_upper : forall fr hd ps h l key, rep fr hd ps (h, l) ->
    (exists A c B, ps = A ++ c :: B /\ eqk (ck c) key = true /\ upperBound impl key (h, l) = (Ok (firstp B), (h, l))) \/
    (exists A B, ps = A ++ B /\ parts eqk gtk key A B /\ upperBound impl key (h, l) = (Ok (firstp B), (h, l)));
  sp_insert : forall fr hd ps h l key, rep fr hd ps (h, l) ->
    (exists c pc, In c ps /\ eqk (ck c) key = true /\ length pc = skipListMaxLevel /\ findInsertPoint impl key (h, l) = (Ok (Some (ca c), O), (h, set_sl_prevs pc l))) \/
    (exists A B pc, ps = A ++ B /\ parts eqk gtk key A B /\ prevs_ok (sl_level l) pc hd A /\ findInsertPoint impl key (h, l) = (Ok (None, sl_level l), (h, set_sl_prevs pc l)));
  sp_remove : forall fr hd ps h l key, rep fr hd ps (h, l) ->
    exists A B pc, ps = A ++ B /\ remove_parts key A B /\ prevs_ok (sl_level l) pc hd A /\
      findRemovePoint impl key (h, l) = (Ok (match B with c :: _ => if eqk (ck c) key then (Some (ca c), sl_level l) else (None, O) | [] => (None, O) end), (h, set_sl_prevs pc l)) }.

Lemma rep_in_split ps c : In c ps -> exists A B, ps = A ++ c :: B.
Proof. intros I. destruct (in_split _ _ I) as (A & B & ->). eauto. Qed.
Lemma rep_next fr hd A c B h l : rep fr hd (A ++ c :: B) (h, l) -> nx h (ca c) 0 = Some (firstp B).
Proof. intros R. apply rep_chain0 in R. apply chain_app in R as [_ R]. apply chain_cons in R as [_ R]. now apply chain_first. Qed.
Lemma rep_last fr hd A B h l : rep fr hd (A ++ B) (h, l) -> nx h (lasta hd A) 0 = Some (firstp B).
Proof. intros R. apply rep_chain0 in R. apply chain_app in R as [_ R]. now apply chain_first. Qed.
Lemma rep_cell fr hd ps h l c : rep fr hd ps (h, l) -> In c ps -> nd h (ca c) = Some (ck c, cv c, ch c).
Proof. intros R I. pose proof (r_cells _ _ _ _ R) as F. rewrite Forall_forall in F. exact (F c I). Qed.

Lemma search fr hd ps h l hit stop : rep fr hd ps (h, l) ->
  (exists c, In c ps /\ hit (ck c) = true /\ descend hit stop (S (length h)) (sl_level l) (Some hd) (h, l) = (Ok (inl (Some (ca c))), (h, l))) \/
  (exists A B, ps = A ++ B /\ descend hit stop (S (length h)) (sl_level l) (Some hd) (h, l) = (Ok (inr (Some (lasta hd A))), (h, l)) /\ last_pass hit stop A /\ blocks hit stop B).
Proof.
  intros R. pose proof (r_level _ _ _ _ R) as Lv. cbn in Lv.
  destruct (descend_ok hit stop h hd ps (r_cells _ _ _ _ R) (r_chain _ _ _ _ R) (rep_fuel _ _ _ _ _ R) l (sl_level l) [] ps eq_refl (or_introl eq_refl)) as [(c & I & Hc & E)|(A & B & Eps & E & LP & Bl & _)]; [lia| |].
  - left. eauto.
  - right. exists A, B. split; auto. split; auto. split; auto. specialize (Bl O ltac:(lia)). rewrite tall0 in Bl; auto.
    intros c I. apply (r_height _ _ _ _ R). subst ps. apply in_app_iff. auto.
Qed.
Lemma search_prevs fr hd ps h l hit stop : rep fr hd ps (h, l) ->
  (exists c pc, In c ps /\ hit (ck c) = true /\ length pc = skipListMaxLevel /\ descend_prevs hit stop (S (length h)) (sl_level l) (sl_level l) (Some hd) (h, l) = (Ok (inl (Some (ca c))), (h, set_sl_prevs pc l))) \/
  (exists A B pc, ps = A ++ B /\ prevs_ok (sl_level l) pc hd A /\
     descend_prevs hit stop (S (length h)) (sl_level l) (sl_level l) (Some hd) (h, l) = (Ok (inr (Some (lasta hd A))), (h, set_sl_prevs pc l)) /\ last_pass hit stop A /\ blocks hit stop B).
Proof.
  intros R. pose proof (r_level _ _ _ _ R) as Lv. cbn in Lv. pose proof (r_prevs _ _ _ _ R) as Lp. cbn in Lp.
  destruct (descend_prevs_ok hit stop h hd ps (r_cells _ _ _ _ R) (r_chain _ _ _ _ R) (rep_fuel _ _ _ _ _ R) (sl_level l) l [] ps eq_refl (or_introl eq_refl))
    as [(c & pc & I & Hc & Lpc & E)|(A & B & pc & Eps & Lpc & E & LP & Bl & _ & P1 & _)]; auto; [lia| |].
  - left. exists c, pc. auto.
  - right. exists A, B, pc. split; auto. split; [split; auto|]. split; auto. split; auto. specialize (Bl O ltac:(lia)). rewrite tall0 in Bl; auto.
    intros c I. apply (r_height _ _ _ _ R). subst ps. apply in_app_iff. auto.
Qed.
Lemma prevs_slice_ok fr hd ps h l : rep fr hd ps (h, l) -> prevs_slice (K := K) (V := V) (h, l) = (Ok (sl_level l), (h, l)).
Proof.
  intros R. unfold prevs_slice. rewrite !bind_hget. pose proof (r_level _ _ _ _ R). pose proof (r_prevs _ _ _ _ R). cbn in *.
  assert (Nat.leb (sl_level l) (length (sl_prevs l)) = true) as -> by (apply Nat.leb_le; lia). reflexivity.
Qed.
Lemma prevs_get_ok h l pc n i q : (i < n)%nat -> nth_error pc i = Some q -> prevs_get (K := K) (V := V) n i (h, set_sl_prevs pc l) = (Ok q, (h, set_sl_prevs pc l)).
Proof. intros L E. unfold prevs_get. rewrite bind_hget. cbn [sl_prevs set_sl_prevs]. assert (Nat.ltb i n = true) as -> by now apply Nat.ltb_lt. rewrite E. reflexivity. Qed.
Lemma remove_point fr hd ps h l key : rep fr hd ps (h, l) ->
  exists A B pc, ps = A ++ B /\ remove_parts key A B /\ prevs_ok (sl_level l) pc hd A /\
   (prevs <- (fuel <- heap_fuel ;; prevs <- prevs_slice ;; prev <- hget sl_head ;; level <- hget sl_level ;;
              _ <- descend_prevs (fun _ => false) (fun k => gek k key) fuel prevs level prev ;; ret prevs) ;;
    p0 <- prevs_get prevs 0 ;; node <- ld_next p0 0 ;;
    if is_nil node then ret (None, O) else k <- ld_key node ;; if negb (eqk k key) then ret (None, O) else ret (node, prevs)) (h, l)
   = (Ok (match B with c :: _ => if eqk (ck c) key then (Some (ca c), sl_level l) else (None, O) | [] => (None, O) end), (h, set_sl_prevs pc l)).
Proof.
  intros R. destruct (search_prevs fr hd ps h l (fun _ => false) (fun k => gek k key) R) as [(c & pc & I & Hc & _)|(A & B & pc & -> & Pv & E & LP & Bl)]; [discriminate|].
  exists A, B, pc. split; auto. split; [split; auto|]. split; auto.
  erewrite bind_eq. 2:{ rewrite bind_fuel. rewrite (bind_eq _ _ _ _ _ (prevs_slice_ok _ _ _ _ _ R)). rewrite !bind_hget. pose proof (r_head _ _ _ _ R) as Eh. cbn in Eh. rewrite Eh.
    rewrite (bind_eq _ _ _ _ _ E). reflexivity. }
  pose proof (r_level _ _ _ _ R) as Lv. cbn in Lv. destruct Pv as [Lp Pv].
  rewrite (bind_eq _ _ _ _ _ (prevs_get_ok h l pc (sl_level l) 0 _ ltac:(lia) (Pv O ltac:(lia)))).
  rewrite tall0 by (intros c I; apply (r_height _ _ _ _ R); apply in_app_iff; auto).
  rewrite (bind_eq _ _ _ _ _ (ld_next_ok h _ _ _ _ (rep_last _ _ _ _ _ _ R))). destruct B as [|c B]; cbn [firstp is_nil]; [reflexivity|].
  assert (Hc : nd h (ca c) = Some (ck c, cv c, ch c)) by (apply (rep_cell _ _ _ _ _ _ R); apply in_app_iff; right; now left).
  rewrite (bind_eq _ _ _ _ _ (ld_key_ok _ _ _ _ _ _ Hc)). destruct (eqk (ck c) key); reflexivity.
Qed.
Lemma insert_point fr hd ps h l key : rep fr hd ps (h, l) ->
  let p := (fuel <- heap_fuel ;; prevs <- prevs_slice ;; prev <- hget sl_head ;; level <- hget sl_level ;;
     r <- descend_prevs (fun k => eqk k key) (fun k => gtk k key) fuel prevs level prev ;;
     match r with inl next => ret (next, O) | inr _ => ret (None, prevs) end) (h, l) in
  (exists c pc, In c ps /\ eqk (ck c) key = true /\ length pc = skipListMaxLevel /\ p = (Ok (Some (ca c), O), (h, set_sl_prevs pc l))) \/
  (exists A B pc, ps = A ++ B /\ parts eqk gtk key A B /\ prevs_ok (sl_level l) pc hd A /\ p = (Ok (None, sl_level l), (h, set_sl_prevs pc l))).
Proof.
  intros R p. subst p. rewrite bind_fuel, (bind_eq _ _ _ _ _ (prevs_slice_ok _ _ _ _ _ R)), !bind_hget. pose proof (r_head _ _ _ _ R) as Eh. cbn in Eh. rewrite Eh.
  destruct (search_prevs fr hd ps h l (fun k => eqk k key) (fun k => gtk k key) R) as [(c & pc & I & Hc & Lp & E)|(A & B & pc & -> & Pv & E & LP & Bl)]; rewrite (bind_eq _ _ _ _ _ E).
  - left. exists c, pc. auto.
  - right. exists A, B, pc. repeat split; auto; apply Pv.
Qed.
Lemma lower_point fr hd ps h l key : rep fr hd ps (h, l) ->
  let p := (fuel <- heap_fuel ;; prev <- hget sl_head ;; level <- hget sl_level ;;
     r <- descend (fun k => eqk k key) (fun k => gtk k key) fuel level prev ;; match r with inl cur => ret cur | inr prev => ld_next prev 0 end) (h, l) in
    (exists A c B, ps = A ++ c :: B /\ eqk (ck c) key = true /\ p = (Ok (Some (ca c)), (h, l))) \/
    (exists A B, ps = A ++ B /\ parts eqk gtk key A B /\ p = (Ok (firstp B), (h, l))).
Proof.
  intros R p. subst p. rewrite bind_fuel, !bind_hget. pose proof (r_head _ _ _ _ R) as Eh. cbn in Eh. rewrite Eh.
  destruct (search fr hd ps h l (fun k => eqk k key) (fun k => gtk k key) R) as [(c & I & Hc & E)|(A & B & -> & E & LP & Bl)]; rewrite (bind_eq _ _ _ _ _ E).
  - left. destruct (rep_in_split _ _ I) as (A & B & ->). exists A, c, B. auto.
  - right. exists A, B. split; auto. split; [split; auto|]. now rewrite (ld_next_ok _ _ _ _ _ (rep_last _ _ _ _ _ _ R)).
Qed.
Lemma upper_point fr hd ps h l key (m : P (slnode K V) sklist ptr) : rep fr hd ps (h, l) ->
    ((exists A c B, ps = A ++ c :: B /\ eqk (ck c) key = true /\ m (h, l) = (Ok (Some (ca c)), (h, l))) \/
     (exists A B, ps = A ++ B /\ parts eqk gtk key A B /\ m (h, l) = (Ok (firstp B), (h, l)))) ->
  let p := (node <- m ;; if is_nil node then ret node else k <- ld_key node ;; if eqk k key then ld_next node 0 else ret node) (h, l) in
    (exists A c B, ps = A ++ c :: B /\ eqk (ck c) key = true /\ p = (Ok (firstp B), (h, l))) \/
    (exists A B, ps = A ++ B /\ parts eqk gtk key A B /\ p = (Ok (firstp B), (h, l))).
Proof.
  intros R [(A & c & B & -> & Hc & E)|(A & B & -> & Pt & E)] p; subst p; rewrite (bind_eq _ _ _ _ _ E).
  - left. exists A, c, B. split; auto. split; auto. cbn [is_nil]. assert (Hcc : nd h (ca c) = Some (ck c, cv c, ch c)) by (apply (rep_cell _ _ _ _ _ _ R); apply in_app_iff; right; now left).
    rewrite (bind_eq _ _ _ _ _ (ld_key_ok _ _ _ _ _ _ Hcc)), Hc. now rewrite (ld_next_ok _ _ _ _ _ (rep_next _ _ _ _ _ _ _ R)).
  - right. exists A, B. split; auto. split; auto. destruct B as [|c B]; cbn [firstp is_nil]; [reflexivity|].
    assert (Hcc : nd h (ca c) = Some (ck c, cv c, ch c)) by (apply (rep_cell _ _ _ _ _ _ R); apply in_app_iff; right; now left).
    rewrite (bind_eq _ _ _ _ _ (ld_key_ok _ _ _ _ _ _ Hcc)). destruct Pt as [_ [Bl _]]. cbn in Bl. rewrite Bl. reflexivity.
Qed.
End Impl.

Lemma ordered_spec ltb eqb : impl_spec eqb (fun a b : K => ltb b a) (implOrdered ltb eqb).
Proof.
  constructor; intros fr hd ps h l key R; cbn [findNode lowerBound upperBound findInsertPoint findRemovePoint implOrdered].
  - unfold ord_findNode, ord_doFindNode. rewrite bind_fuel, !bind_hget. pose proof (r_head _ _ _ _ R) as Eh. cbn in Eh. rewrite Eh. unfold gtb.
    destruct (search fr hd ps h l (fun k => eqb k key) (fun k => ltb key k) R) as [(c & I & Hc & E)|(A & B & -> & E & LP & Bl)]; rewrite (bind_eq _ _ _ _ _ E).
    + left. eauto.
    + right. exists A, B. repeat split; auto.
  - exact (lower_point eqb (fun a b : K => ltb b a) fr hd ps h l key R).
  - apply (upper_point eqb (fun a b : K => ltb b a) fr hd ps h l key (ord_lowerBound ltb eqb key) R). exact (lower_point eqb (fun a b : K => ltb b a) fr hd ps h l key R).
  - exact (insert_point eqb (fun a b : K => ltb b a) fr hd ps h l key R).
  - exact (remove_point eqb (fun a b : K => ltb b a) fr hd ps h l key R).
Qed.
Lemma scan_ext hit stop stop' : (forall k, stop k = stop' k) -> forall fuel i prev cur s, scan (K := K) (V := V) hit stop fuel i prev cur s = scan hit stop' fuel i prev cur s.
Proof.
  intros E. induction fuel as [|fuel IH]; intros i prev cur s; cbn [scan]; auto. destruct (is_nil cur); auto. unfold bind. destruct (ld_key cur s) as [[k| |] s1]; auto.
  rewrite <- E. destruct (hit k); auto. destruct (stop k); auto. destruct (ld_next cur i s1) as [[n| |] s2]; auto.
Qed.
Lemma descend_prevs_ext hit stop stop' fuel prevs : (forall k, stop k = stop' k) -> forall level prev s, descend_prevs (K := K) (V := V) hit stop fuel prevs level prev s = descend_prevs hit stop' fuel prevs level prev s.
Proof.
  intros E. induction level as [|i IH]; intros prev s; cbn [descend_prevs]; auto. unfold bind. destruct (ld_next prev i s) as [[n| |] s2]; auto.
  rewrite <- (scan_ext hit stop stop' E). destruct (scan hit stop fuel i prev n s2) as [[[r|r]| |] s3]; auto. destruct (prevs_set prevs i r s3) as [[[]| |] s4]; auto.
Qed.
Lemma func_spec cmp : impl_spec (fun a b : K => cmp a b =? 0) (fun a b : K => 0 <? cmp a b) (implFunc cmp).
Proof.
  constructor; intros fr hd ps h l key R; cbn [findNode lowerBound upperBound findInsertPoint findRemovePoint implFunc].
  - unfold fn_findNode. destruct (lower_point (fun a b : K => cmp a b =? 0) (fun a b : K => 0 <? cmp a b) fr hd ps h l key R) as [(A & c & B & -> & Hc & E)|(A & B & -> & Pt & E)];
      unfold fn_lowerBound; rewrite (bind_eq _ _ _ _ _ E).
    + left. exists c. assert (I : In c (A ++ c :: B)) by (apply in_app_iff; right; now left). split; auto. split; auto. cbn [is_nil].
      rewrite (bind_eq _ _ _ _ _ (ld_key_ok _ _ _ _ _ _ (rep_cell _ _ _ _ _ _ R I))), Hc. reflexivity.
    + right. exists A, B. split; auto. split; auto. destruct B as [|c B]; cbn [firstp is_nil]; [reflexivity|].
      assert (I : In c (A ++ c :: B)) by (apply in_app_iff; right; now left).
      rewrite (bind_eq _ _ _ _ _ (ld_key_ok _ _ _ _ _ _ (rep_cell _ _ _ _ _ _ R I))). destruct Pt as [_ [Bl _]]. cbn in Bl. rewrite Bl. reflexivity.
  - exact (lower_point (fun a b : K => cmp a b =? 0) (fun a b : K => 0 <? cmp a b) fr hd ps h l key R).
  - apply (upper_point (fun a b : K => cmp a b =? 0) (fun a b : K => 0 <? cmp a b) fr hd ps h l key (fn_lowerBound cmp key) R).
    exact (lower_point (fun a b : K => cmp a b =? 0) (fun a b : K => 0 <? cmp a b) fr hd ps h l key R).
  - exact (insert_point (fun a b : K => cmp a b =? 0) (fun a b : K => 0 <? cmp a b) fr hd ps h l key R).
  - destruct (remove_point (fun a b : K => cmp a b =? 0) (fun a b : K => 0 <? cmp a b) fr hd ps h l key R) as (A & B & pc & Eps & Rp & Pv & E).
    exists A, B, pc. split; auto. split; auto. split; auto. rewrite <- E. unfold fn_findRemovePoint, fn_findPrevNodes. unfold bind, heap_fuel.
    destruct (prevs_slice (h, l)) as [[n| |] [h1 l1]]; auto. unfold hget.
    rewrite (descend_prevs_ext _ (fun k => 0 <=? cmp k key) (fun k => gek (fun a b : K => cmp a b =? 0) (fun a b : K => 0 <? cmp a b) k key)); auto.
    intros k. unfold gek. lia.
Qed.

(** *** Insert *)
Definition linked h hd A c B i : Prop :=
  forall j, (j < skipListMaxLevel)%nat -> chain h j hd (tall j A ++ (if Nat.ltb j i && Nat.ltb j (ch c) then [c] else []) ++ tall j B).
Lemma chain_other h b i q p j a X : nx h b i = Some p -> i <> j -> chain h j a X -> chain (sn b i q h) j a X.
Proof. intros N NE. apply chain_frame. intros x _. rewrite (nx_sn _ _ _ _ _ _ _ N). destruct (Nat.eqb_spec i j); [lia|]. now rewrite andb_false_r. Qed.
Lemma nodup_filter_addrs a X : NoDup (a :: addrs X) -> forall i, NoDup (a :: addrs (tall i X)).
Proof.
  intros ND i. apply NoDup_cons_iff in ND as [NI ND]. constructor; [intros I; apply NI; now apply addrs_tall_in in I|].
  clear NI. induction X as [|c X IH]; cbn; [constructor|]. cbn in ND. apply NoDup_cons_iff in ND as [NI ND]. destruct (Nat.ltb i (ch c)); auto.
  cbn. constructor; auto. intros I. apply NI. now apply addrs_tall_in in I.
Qed.
Lemma link_loop_ok hd A c B pc l n : NoDup (hd :: addrs (A ++ B)) -> ~ In (ca c) (hd :: addrs (A ++ B)) ->
  (forall j, (j < n)%nat -> nth_error pc j = Some (Some (lasta hd (tall j A)))) -> (n <= skipListMaxLevel)%nat ->
  forall todo i h, (i + todo <= n)%nat -> (i + todo <= ch c)%nat -> linked h hd A c B i -> (forall j, (j < ch c)%nat -> exists q, nx h (ca c) j = Some q) ->
  (forall a, nd h a <> None -> (a < length h)%nat) ->
  exists h', link_loop todo i n (Some (ca c)) (h, set_sl_prevs pc l) = (Ok tt, (h', set_sl_prevs pc l)) /\
    linked h' hd A c B (i + todo) /\ (forall a, nd h' a = nd h a) /\ length h' = length h /\
    (forall j, (i + todo <= j)%nat -> nx h' (ca c) j = nx h (ca c) j) /\
    (forall fr, keeps fr h -> (forall a, In a (ca c :: hd :: addrs (A ++ B)) -> fr a = None) -> keeps fr h').
Proof.
  intros ND NI Pv Ln. induction todo as [|todo IH]; intros i h Li Lc Lk Nx Nd; cbn [link_loop].
  - exists h. rewrite Nat.add_0_r. repeat (split; [solve [auto]|]). auto.
  - set (p := lasta hd (tall i A)).
    rewrite (bind_eq _ _ _ _ _ (prevs_get_ok h l pc n i _ ltac:(lia) (Pv i ltac:(lia)))). fold p.
    assert (Ch : chain h i hd (tall i A ++ tall i B)).
    { specialize (Lk i ltac:(lia)). rewrite Nat.ltb_irrefl in Lk. exact Lk. }
    pose proof Ch as Ch0. apply chain_app in Ch0 as [_ Ch0]. fold p in Ch0. pose proof (chain_first _ _ _ _ Ch0) as Np.
    rewrite (bind_eq _ _ _ _ _ (ld_next_ok h _ _ _ _ Np)). destruct (Nx i ltac:(lia)) as [q Nc]. rewrite (bind_eq _ _ _ _ _ (st_next_ok h _ _ _ _ _ Nc)).
    set (h1 := sn (ca c) i (firstp (tall i B)) h). rewrite (bind_eq _ _ _ _ _ (prevs_get_ok h1 l pc n i _ ltac:(lia) (Pv i ltac:(lia)))). fold p.
    assert (NDi : NoDup (hd :: addrs (tall i A ++ tall i B))) by (rewrite <- tall_app; now apply nodup_filter_addrs).
    assert (NIi : ~ In (ca c) (hd :: addrs (tall i A ++ tall i B))).
    { intros I. apply NI. rewrite <- tall_app in I. destruct I as [I|I]; [now left|]. right. now apply addrs_tall_in in I. }
    assert (NE : ca c <> p). { intros E. apply NIi. rewrite E. unfold p. pose proof (lasta_in hd (tall i A)) as [I|I]; [now left|]. right. unfold addrs. rewrite map_app, in_app_iff. auto. }
    assert (Np1 : nx h1 p i = Some (firstp (tall i B))) by (unfold h1; rewrite (nx_sn _ _ _ _ _ _ _ Nc); destruct (Nat.eqb_spec (ca c) p); [contradiction|exact Np]).
    rewrite (bind_eq _ _ _ _ _ (st_next_ok h1 _ _ _ _ _ Np1)). set (h2 := sn p i (Some (ca c)) h1).
    assert (Nd2 : forall a, nd h2 a = nd h a) by (intros a; unfold h2, h1; now rewrite !nd_sn).
    assert (Ln2 : length h2 = length h) by (unfold h2, h1; now rewrite !len_sn).
    destruct (IH (S i) h2) as (h' & E & Lk' & Nd' & Ln' & Nx' & Kp'); try lia.
    + intros j Lj. destruct (Nat.eq_dec j i) as [->|NEj].
      * assert (Nat.ltb i (S i) = true) as -> by (apply Nat.ltb_lt; lia). assert (Nat.ltb i (ch c) = true) as -> by (apply Nat.ltb_lt; lia). cbn [andb app].
        exact (chain_insert h i hd (tall i A) c (tall i B) q Ch NDi NIi Nc).
      * assert (Nat.ltb j (S i) = Nat.ltb j i) as -> by (destruct (Nat.ltb_spec j (S i)), (Nat.ltb_spec j i); lia).
        unfold h2. apply (chain_other h1 p i _ _ j _ _ Np1); auto. unfold h1. apply (chain_other h (ca c) i _ _ j _ _ Nc); auto.
    + intros j Lj. destruct (Nx j Lj) as [qj Ej]. unfold h2, h1. rewrite (nx_sn _ _ _ _ _ _ _ Np1). destruct (_ && _); [eauto|]. unfold h1. rewrite (nx_sn _ _ _ _ _ _ _ Nc). destruct (_ && _); eauto.
    + intros a. rewrite Nd2, Ln2. auto.
    + exists h'. split; auto. replace (i + S todo)%nat with (S i + todo)%nat by lia. split; auto. split; [intros a; rewrite Nd'; auto|]. split; [lia|]. split.
      * intros j Lj. rewrite Nx' by lia. unfold h2. rewrite (nx_sn _ _ _ _ _ _ _ Np1). destruct (Nat.eqb_spec i j); [lia|]. rewrite andb_false_r. unfold h1. rewrite (nx_sn _ _ _ _ _ _ _ Nc). destruct (Nat.eqb_spec i j); [lia|]. now rewrite andb_false_r.
      * intros fr Kp Ab. apply Kp'; auto. apply keeps_sn.
        -- apply keeps_sn; auto. apply Ab. now left.
        -- apply Ab. right. unfold p. pose proof (lasta_in hd (tall i A)) as [I|I]; [now left|]. right. apply addrs_tall_in in I. unfold addrs. rewrite map_app, in_app_iff. auto.
Qed.
Lemma raise_loop_ok hd A c B l : sl_head l = Some hd -> ca c <> hd ->
  forall todo i h, (i + todo = ch c)%nat -> (ch c <= skipListMaxLevel)%nat -> linked h hd A c B i ->
  (forall j, (i <= j < ch c)%nat -> tall j A = [] /\ tall j B = [] /\ nx h (ca c) j = Some None) ->
  exists h', raise_loop todo i (Some (ca c)) (h, l) = (Ok tt, (h', l)) /\
    linked h' hd A c B (ch c) /\ (forall a, nd h' a = nd h a) /\ length h' = length h /\
    (forall fr, keeps fr h -> fr hd = None -> keeps fr h').
Proof.
  intros Eh NE. induction todo as [|todo IH]; intros i h Li Lm Lk Em; cbn [raise_loop].
  - exists h. replace (ch c) with i by lia. repeat (split; [solve [auto]|]). auto.
  - rewrite bind_hget, Eh. pose proof (Lk i ltac:(lia)) as Ch. destruct (Em i ltac:(lia)) as (TA & TB & Nc). rewrite Nat.ltb_irrefl, TA, TB in Ch. cbn [andb app] in Ch.
    pose proof (chain_first _ _ _ _ Ch) as Nh. rewrite (bind_eq _ _ _ _ _ (st_next_ok h l _ _ _ _ Nh)). set (h1 := sn hd i (Some (ca c)) h).
    destruct (IH (S i) h1) as (h' & E & Lk' & Nd' & Ln' & Kp'); auto; try lia.
    + intros j Lj. destruct (Nat.eq_dec j i) as [->|NEj].
      * rewrite TA, TB. assert (Nat.ltb i (S i) = true) as -> by (apply Nat.ltb_lt; lia). assert (Nat.ltb i (ch c) = true) as -> by (apply Nat.ltb_lt; lia). cbn [andb app].
        apply chain_cons. unfold h1. rewrite (nx_sn _ _ _ _ _ _ _ Nh), !Nat.eqb_refl. split; [reflexivity|]. split; [exact I|]. cbn [lasta].
        rewrite (nx_sn _ _ _ _ _ _ _ Nh). destruct (Nat.eqb_spec hd (ca c)); [congruence|exact Nc].
      * assert (Nat.ltb j (S i) = Nat.ltb j i) as -> by (destruct (Nat.ltb_spec j (S i)), (Nat.ltb_spec j i); lia).
        unfold h1. apply (chain_other h hd i _ _ j _ _ Nh); auto.
    + intros j Lj. destruct (Em j ltac:(lia)) as (T1 & T2 & N). split; auto. split; auto. unfold h1. rewrite (nx_sn _ _ _ _ _ _ _ Nh). destruct (Nat.eqb_spec hd (ca c)); [congruence|exact N].
    + exists h'. split; auto. split; auto. split; [intros a; rewrite Nd'; apply nd_sn|]. split; [rewrite Ln'; apply len_sn|]. intros fr Kp Lh. apply Kp'; auto. now apply keeps_sn.
Qed.

Section Methods.
Variables (eqk gtk : K -> K -> bool) (impl : @slimpl K V).
Hypothesis SP : impl_spec eqk gtk impl.

Definition set_cv v c : cell := mkC (ca c) (ch c) (ck c) v.
(** The value of the cell at address a. *)
Definition put a v ps := map (fun c => if Nat.eqb (ca c) a then set_cv v c else c) ps.
Lemma put_addrs a v ps : addrs (put a v ps) = addrs ps.
Proof. unfold addrs, put. rewrite map_map. apply map_ext. intros c. now destruct (Nat.eqb (ca c) a). Qed.
Lemma tall_put a v i ps : tall i (put a v ps) = put a v (tall i ps).
Proof.
  unfold tall, put. induction ps as [|c ps IH]; auto. cbn [map filter]. rewrite IH.
  assert (ch (if Nat.eqb (ca c) a then set_cv v c else c) = ch c) as -> by now destruct (Nat.eqb (ca c) a). now destruct (Nat.ltb i (ch c)).
Qed.
Lemma lasta_addrs X Y : addrs X = addrs Y -> forall b, lasta b X = lasta b Y.
Proof. revert Y. induction X as [|c X IH]; intros [|d Y] E b; cbn in E; try discriminate; auto. injection E as E1 E2. cbn. rewrite E1. now apply IH. Qed.
Lemma path_addrs h i X : forall Y b, addrs X = addrs Y -> path h i b X -> path h i b Y.
Proof. induction X as [|c X IH]; intros [|d Y] b E; cbn in E; try discriminate; auto. injection E as E1 E2. cbn. rewrite E1. intros [H1 H2]. split; auto. Qed.
Lemma chain_addrs h i X Y b : addrs X = addrs Y -> chain h i b X -> chain h i b Y.
Proof. intros E [P N]. split; [now apply (path_addrs h i X)|]. now rewrite <- (lasta_addrs _ _ E). Qed.
Lemma rep_put fr hd ps h l a v : rep fr hd ps (h, l) -> In a (addrs ps) -> rep fr hd (put a v ps) (sv a v h, l).
Proof.
  intros R I. apply in_map_iff in I as (c & <- & I). pose proof (rep_cell _ _ _ _ _ _ R I) as Nc. destruct R as [Kp Hd Ce Cn Nn Ab Lv He Ex Pv Le Hh]; cbn [fst snd] in *.
  assert (NEh : ca c <> hd). { intros E. apply NoDup_cons_iff in Nn as [NI _]. apply NI. rewrite <- E. now apply in_map. }
  constructor; cbn [fst snd]; auto.
  - apply keeps_sv; auto. apply Ab. right. now apply in_map.
  - destruct Hd as (k & w & E). exists k, w. rewrite (nd_sv _ _ _ _ _ _ _ Nc). destruct (Nat.eqb_spec (ca c) hd); [contradiction|exact E].
  - apply Forall_forall. intros d Id. unfold put in Id. apply in_map_iff in Id as (e & <- & Ie). unfold cellok. rewrite (nd_sv _ _ _ _ _ _ _ Nc). rewrite Forall_forall in Ce.
    destruct (Nat.eqb_spec (ca e) (ca c)) as [E|NE].
    + cbn [ca ck cv ch set_cv]. rewrite E, Nat.eqb_refl. specialize (Ce e Ie). unfold cellok in Ce. rewrite E, Nc in Ce. injection Ce as -> _ ->. reflexivity.
    + destruct (Nat.eqb_spec (ca c) (ca e)); [congruence|]. apply Ce; auto.
  - intros i Li. rewrite tall_put. apply (chain_addrs _ _ (tall i ps)); [now rewrite put_addrs|]. apply (chain_frame h); auto. intros x _. apply nx_sv.
  - now rewrite put_addrs.
  - now rewrite put_addrs.
  - intros d Id. unfold put in Id. apply in_map_iff in Id as (e & <- & Ie). destruct (Nat.eqb (ca e) (ca c)); cbn; apply He; auto.
  - destruct Ex as [Ex|(e & Ie & Ex)]; auto. right. exists (if Nat.eqb (ca e) (ca c) then set_cv v e else e). split; [unfold put; now apply (in_map (fun c0 => if Nat.eqb (ca c0) (ca c) then set_cv v c0 else c0))|]. destruct (Nat.eqb (ca e) (ca c)); auto.
  - unfold zlen, put in *. now rewrite map_length.
Qed.
Lemma max_ltb n m : Model_Lookup.Min Nat.ltb n m = Nat.min n m.
Proof. unfold Model_Lookup.Min. destruct (Nat.ltb_spec n m); lia. Qed.
Lemma tall_none i ps : (forall c, In c ps -> (ch c <= i)%nat) -> tall i ps = [].
Proof. intros H. destruct (tall i ps) as [|c r] eqn:E; auto. exfalso. assert (I : In c (tall i ps)) by (rewrite E; now left). apply tall_in in I as [I L]. specialize (H c I). lia. Qed.

Lemma Insert_ok fr hd ps h l key value r : rep fr hd ps (h, l) ->
  (exists c h' l', In c ps /\ eqk (ck c) key = true /\ Insert impl key value r (h, l) = (Ok tt, (h', l')) /\ rep fr hd (put (ca c) value ps) (h', l')) \/
  (exists A c B h' l', ps = A ++ B /\ parts eqk gtk key A B /\ ck c = key /\ cv c = value /\ ch c = randomLevel r (sl_len l) /\ ~ In (ca c) (hd :: addrs ps) /\
     Insert impl key value r (h, l) = (Ok tt, (h', l')) /\ rep fr hd (A ++ c :: B) (h', l')).
Proof using SP.
  intros R. unfold Insert. destruct (sp_insert _ _ _ SP fr hd ps h l key R) as [(c & pc & I & Hc & Lp & E)|(A & B & pc & -> & Pt & Pv & E)]; rewrite (bind_eq _ _ _ _ _ E); cbn [is_nil negb].
  - left. exists c, (sv (ca c) value h), (set_sl_prevs pc l). split; auto. split; auto.
    rewrite (st_value_ok _ _ _ _ _ (rep_cell _ _ _ _ _ _ R I)). split; auto. apply rep_put; [now apply rep_prevs|now apply in_map].
  - right. rewrite bind_hget. change (sl_len (set_sl_prevs pc l)) with (sl_len l). set (lv := randomLevel r (sl_len l)).
    pose proof (randomLevel_range r (sl_len l)) as Bl. fold lv in Bl. unfold newSkipListNode.
    rewrite (nexts_len_ok lv Bl).
    set (node := mkSLNode key value (repeat None lv)). rewrite bind_pnew, bind_hget. change (sl_level (set_sl_prevs pc l)) with (sl_level l). rewrite max_ltb.
    set (c := mkC (length h) lv key value). change (Some (length h)) with (Some (ca c)).
    pose proof R as R0. destruct R as [Kp Hd Ce Cn Nn Ab Lvl He Ex Pvl Le Hh]; cbn [fst snd] in *.
    assert (Old : forall a, In a (hd :: addrs (A ++ B)) -> (a < length h)%nat).
    { intros a [<-|I]; [destruct Hd as (k & v & E1); now apply nd_lt in E1|]. apply in_map_iff in I as (d & <- & I). rewrite Forall_forall in Ce. exact (nd_lt _ _ _ (Ce d I)). }
    assert (NI : ~ In (ca c) (hd :: addrs (A ++ B))) by (intros I; apply Old in I; cbn in I; lia).
    set (h1 := h ++ [node]).
    assert (Nx1 : forall b j, b <> length h -> nx h1 b j = nx h b j) by (intros b j NE; unfold h1; rewrite nx_new; destruct (Nat.eqb_spec b (length h)); [contradiction|reflexivity]).
    assert (Nd1 : forall b, b <> length h -> nd h1 b = nd h b) by (intros b NE; unfold h1; rewrite nd_new; destruct (Nat.eqb_spec b (length h)); [contradiction|reflexivity]).
    assert (Nxn : forall j, (j < lv)%nat -> nx h1 (ca c) j = Some None).
    { intros j Lj. unfold h1. rewrite nx_new. cbn [ca c]. rewrite Nat.eqb_refl. cbn [n_next node]. rewrite nth_error_repeat; auto. }
    assert (Ndn : nd h1 (ca c) = Some (key, value, lv)) by (unfold h1; rewrite nd_new; cbn [ca c]; rewrite Nat.eqb_refl; cbn; now rewrite repeat_length).
    destruct Pv as [Lp Pv].
    destruct (link_loop_ok hd A c B pc l (sl_level l) Nn NI Pv ltac:(lia) (Nat.min lv (sl_level l)) 0 h1) as (h2 & E2 & Lk2 & Nd2 & Ln2 & Nx2 & Kp2); try (cbn; lia).
    { intros j Lj. cbn [Nat.ltb Nat.leb]. assert (Nat.ltb j 0 = false) as -> by (apply Nat.ltb_ge; lia). cbn [andb app]. rewrite <- tall_app. apply (chain_frame h); auto.
      intros x I. apply Nx1. assert (In x (hd :: addrs (A ++ B))) by (destruct I as [<-|I]; [now left|right; now apply addrs_tall_in in I]). specialize (Old x H). lia. }
    { intros j Lj. exists None. apply Nxn. exact Lj. }
    { intros a Na. destruct (nd h1 a) eqn:Ea; [now apply nd_lt in Ea|congruence]. }
    rewrite (bind_eq _ _ _ _ _ E2). cbn [Nat.add] in *.
    assert (Ab' : forall a, In a (ca c :: hd :: addrs (A ++ B)) -> fr a = None).
    { intros a [<-|I]; [cbn; now apply keeps_new|now apply Ab]. }
    assert (Kp1 : keeps fr h2) by (apply Kp2; auto; now apply keeps_app).
    assert (Fin : exists h3 l3, ((if Nat.ltb (sl_level l) lv then raise_loop (lv - sl_level l) (sl_level l) (Some (ca c));; hmod (set_sl_level lv) else ret tt) (h2, set_sl_prevs pc l)) = (Ok tt, (h3, l3)) /\
       linked h3 hd A c B lv /\ (forall a, nd h3 a = nd h1 a) /\ keeps fr h3 /\ sl_level l3 = Nat.max lv (sl_level l) /\ sl_len l3 = sl_len l /\ sl_head l3 = Some hd /\ sl_prevs l3 = pc).
    { destruct (Nat.ltb_spec (sl_level l) lv) as [Lt|Ge].
      - destruct (raise_loop_ok hd A c B (set_sl_prevs pc l) Hh) with (todo := (lv - sl_level l)%nat) (i := sl_level l) (h := h2) as (h3 & E3 & Lk3 & Nd3 & Ln3 & Kp3).
        + intros E3. apply NI. rewrite E3. now left.
        + cbn. lia.
        + cbn. lia.
        + rewrite Nat.min_r in Lk2 by lia. exact Lk2.
        + intros j Lj. split; [|split].
          * apply tall_none. intros d I. assert (ch d <= sl_level l)%nat by (apply He; apply in_app_iff; auto). lia.
          * apply tall_none. intros d I. assert (ch d <= sl_level l)%nat by (apply He; apply in_app_iff; auto). lia.
          * rewrite Nx2 by lia. apply Nxn. cbn in Lj. lia.
        + exists h3, (set_sl_level lv (set_sl_prevs pc l)). rewrite (bind_eq _ _ _ _ _ E3). split; [reflexivity|]. split; auto. split; [intros a; rewrite Nd3; apply Nd2|].
          split; [apply Kp3; auto; apply Ab; now left|]. cbn. repeat split; auto. lia.
      - exists h2, (set_sl_prevs pc l). split; [reflexivity|]. rewrite Nat.min_l in Lk2 by lia. split; [exact Lk2|]. split; [exact Nd2|]. split; [exact Kp1|]. cbn. repeat split; auto. lia. }
    destruct Fin as (h3 & l3 & E3 & Lk3 & Nd3 & Kp3 & Lv3 & Le3 & Hd3 & Pv3). rewrite (bind_eq _ _ _ _ _ E3), bind_hget.
    exists A, c, B, h3, (set_sl_len (sl_len l3 + 1) l3). split; auto. split; auto. split; [reflexivity|]. split; [reflexivity|]. split; [reflexivity|]. split; auto. split; [reflexivity|].
    constructor; cbn [fst snd set_sl_len sl_level sl_len sl_head sl_prevs]; auto.
    + destruct Hd as (k & v & E4). exists k, v. rewrite Nd3, Nd1; auto. assert (hd < length h)%nat by (apply Old; now left). lia.
    + apply Forall_forall. intros d I. unfold cellok. rewrite Nd3. apply in_app_iff in I as [I|[<-|I]].
      * rewrite Nd1; [rewrite Forall_forall in Ce; apply Ce; apply in_app_iff; auto|]. assert (ca d < length h)%nat by (apply Old; right; apply in_map; apply in_app_iff; auto). lia.
      * exact Ndn.
      * rewrite Nd1; [rewrite Forall_forall in Ce; apply Ce; apply in_app_iff; auto|]. assert (ca d < length h)%nat by (apply Old; right; apply in_map; apply in_app_iff; auto). lia.
    + intros j Lj. specialize (Lk3 j Lj). cbn [ch c] in Lk3. rewrite tall_app. cbn [tall filter ch c]. destruct (Nat.ltb j lv); exact Lk3.
    + unfold addrs. rewrite map_app. cbn [map]. change (hd :: map ca A ++ ca c :: map ca B) with ((hd :: map ca A) ++ ca c :: map ca B). apply NoDup_Add with (a := ca c) (l := hd :: addrs (A ++ B)).
      * unfold addrs. rewrite map_app. apply Add_app with (l1 := hd :: map ca A).
      * split; auto.
    + intros a I. apply Ab'. unfold addrs in *. rewrite map_app in I. cbn [map] in I. destruct I as [<-|I]; [right; now left|]. apply in_app_iff in I as [I|[I|I]]; [|now left|]; right; right; rewrite map_app; apply in_app_iff; auto.
    + lia.
    + intros d I. rewrite Lv3. apply in_app_iff in I as [I|[<-|I]].
      * assert (1 <= ch d <= sl_level l)%nat by (apply He; apply in_app_iff; auto). lia.
      * cbn. lia.
      * assert (1 <= ch d <= sl_level l)%nat by (apply He; apply in_app_iff; auto). lia.
    + rewrite Lv3. destruct (Nat.max_spec lv (sl_level l)) as [[L ->]|[L ->]].
      * destruct Ex as [Ex|(d & I & Ex)]; [left; exact Ex|right]. exists d. split; auto. apply in_app_iff in I as [I|I]; apply in_app_iff; [now left|right; now right].
      * right. exists c. split; [apply in_app_iff; right; now left|reflexivity].
    + now rewrite Pv3.
    + rewrite Le3, Le. unfold zlen. rewrite !app_length. cbn [length]. lia.
Qed.

(** *** Remove *)
Definition unlinked h hd A c B i : Prop :=
  forall j, (j < skipListMaxLevel)%nat -> chain h j hd (tall j A ++ (if Nat.leb i j && Nat.ltb j (ch c) then [c] else []) ++ tall j B).
Lemma unlink_loop_ok hd A c B pc l n : NoDup (hd :: addrs (A ++ c :: B)) ->
  (forall j, (j < n)%nat -> nth_error pc j = Some (Some (lasta hd (tall j A)))) -> (n <= skipListMaxLevel)%nat ->
  forall todo i h, (i + todo <= n)%nat -> (i + todo = ch c)%nat -> unlinked h hd A c B i ->
  exists h', unlink_loop todo i n (Some (ca c)) (h, set_sl_prevs pc l) = (Ok tt, (h', set_sl_prevs pc l)) /\
    unlinked h' hd A c B (ch c) /\ (forall a, nd h' a = nd h a) /\ (forall j, nx h' (ca c) j = nx h (ca c) j) /\ length h' = length h /\
    (forall fr, keeps fr h -> (forall a, In a (hd :: addrs A) -> fr a = None) -> keeps fr h').
Proof.
  intros ND Pv Ln. assert (NEc : forall j, lasta hd (tall j A) <> ca c).
  { intros j E. destruct (nodup_app_addrs _ _ _ ND) as (_ & _ & N3). apply (N3 (ca c)); [now left|]. rewrite <- E.
    pose proof (lasta_in hd (tall j A)) as [I|I]; [now left|]. right. now apply addrs_tall_in in I. }
  induction todo as [|todo IH]; intros i h Li Lc Lk; cbn [unlink_loop].
  - exists h. replace (ch c) with i by lia. repeat (split; [solve [auto]|]). auto.
  - set (p := lasta hd (tall i A)).
    assert (Ch : chain h i hd (tall i A ++ c :: tall i B)).
    { specialize (Lk i ltac:(lia)). rewrite Nat.leb_refl in Lk. assert (Nat.ltb i (ch c) = true) as E by (apply Nat.ltb_lt; lia). rewrite E in Lk. exact Lk. }
    pose proof Ch as Ch0. apply chain_app in Ch0 as [_ Ch0]. fold p in Ch0. apply chain_cons in Ch0 as [Np Ch0]. pose proof (chain_first _ _ _ _ Ch0) as Nc.
    rewrite (bind_eq _ _ _ _ _ (ld_next_ok h _ _ _ _ Nc)). rewrite (bind_eq _ _ _ _ _ (prevs_get_ok h l pc n i _ ltac:(lia) (Pv i ltac:(lia)))). fold p.
    rewrite (bind_eq _ _ _ _ _ (st_next_ok h _ _ _ _ _ Np)). set (h1 := sn p i (firstp (tall i B)) h).
    assert (NDi : NoDup (hd :: addrs (tall i A ++ c :: tall i B))).
    { replace (tall i A ++ c :: tall i B) with (tall i (A ++ c :: B)); [now apply nodup_filter_addrs|]. rewrite tall_app. cbn [tall filter].
      assert (Nat.ltb i (ch c) = true) as -> by (apply Nat.ltb_lt; lia). reflexivity. }
    destruct (IH (S i) h1) as (h' & E & Lk' & Nd' & Nx' & Ln' & Kp'); try lia.
    + intros j Lj. destruct (Nat.eq_dec j i) as [->|NEj].
      * assert (Nat.leb (S i) i = false) as -> by (apply Nat.leb_gt; lia). cbn [andb app]. exact (chain_remove h i hd (tall i A) c (tall i B) Ch NDi).
      * assert (Nat.leb (S i) j = Nat.leb i j) as -> by (destruct (Nat.leb_spec (S i) j), (Nat.leb_spec i j); lia).
        apply (chain_other h p i _ _ j _ _ Np); auto.
    + exists h'. split; auto. split; auto. split; [intros a; rewrite Nd'; apply nd_sn|]. split; [|split].
      * intros j. rewrite Nx'. unfold h1. rewrite (nx_sn _ _ _ _ _ _ _ Np). destruct (Nat.eqb_spec p (ca c)); [exfalso; exact (NEc i e)|reflexivity].
      * rewrite Ln'. apply len_sn.
      * intros fr Kp Ab. apply Kp'; auto. apply keeps_sn; auto. apply Ab. unfold p. pose proof (lasta_in hd (tall i A)) as [I|I]; [now left|]. right. now apply addrs_tall_in in I.
Qed.
Lemma shrink_loop_ok hd ps h : (forall i, (i < skipListMaxLevel)%nat -> chain h i hd (tall i ps)) ->
  forall fuel l, (sl_level l < fuel)%nat -> (1 <= sl_level l <= skipListMaxLevel)%nat -> sl_head l = Some hd -> (forall c, In c ps -> (1 <= ch c <= sl_level l)%nat) ->
  exists lv, shrink_loop (K := K) (V := V) fuel (h, l) = (Ok tt, (h, set_sl_level lv l)) /\ (1 <= lv <= sl_level l)%nat /\
    (forall c, In c ps -> (1 <= ch c <= lv)%nat) /\ (lv = 1%nat \/ exists c, In c ps /\ ch c = lv).
Proof.
  intros Ch. induction fuel as [|fuel IH]; intros l Lf Lv Hh He; [lia|]. cbn [shrink_loop]. rewrite bind_hget.
  destruct (Nat.ltb_spec 1 (sl_level l)) as [L1|L1]; cbn [negb].
  - rewrite bind_hget, Hh. pose proof (Ch (sl_level l - 1)%nat ltac:(lia)) as Ct. rewrite (bind_eq _ _ _ _ _ (ld_next_ok h l _ _ _ (chain_first _ _ _ _ Ct))).
    destruct (tall (sl_level l - 1) ps) as [|c r] eqn:Et; cbn [firstp is_nil].
    + rewrite bind_hmod. destruct (IH (set_sl_level (sl_level l - 1) l)) as (lv & E & B & H1 & H2); cbn; auto; try lia.
      * intros d I. split; [apply He; auto|]. destruct (Nat.lt_ge_cases (sl_level l - 1) (ch d)); [|lia]. exfalso.
        assert (In d (tall (sl_level l - 1) ps)) by (apply tall_in; auto). rewrite Et in H0. contradiction.
      * exists lv. split; [rewrite E; reflexivity|]. split; auto. cbn in B. lia.
    + exists (sl_level l). split; [destruct l; reflexivity|]. split; [lia|]. split; auto. right. exists c.
      assert (I : In c (tall (sl_level l - 1) ps)) by (rewrite Et; now left). apply tall_in in I as [I L]. split; auto. specialize (He c I). lia.
  - exists (sl_level l). split; [destruct l; reflexivity|]. split; [lia|]. split; auto. left. lia.
Qed.

Lemma Remove_ok fr hd ps h l key : rep fr hd ps (h, l) -> exists A B h' l',
  ps = A ++ B /\ remove_parts eqk gtk key A B /\ (forall a, nd h' a = nd h a) /\
  match B with
  | c :: B' => if eqk (ck c) key then Remove impl key (h, l) = (Ok true, (h', l')) /\ rep fr hd (A ++ B') (h', l') /\ nx h' (ca c) 0 = Some (firstp B')
               else Remove impl key (h, l) = (Ok false, (h', l')) /\ rep fr hd ps (h', l')
  | [] => Remove impl key (h, l) = (Ok false, (h', l')) /\ rep fr hd ps (h', l')
  end.
Proof using SP.
  intros R. destruct (sp_remove _ _ _ SP fr hd ps h l key R) as (A & B & pc & -> & Rp & [Lp Pv] & E). unfold Remove. rewrite (bind_eq _ _ _ _ _ E). exists A, B.
  destruct B as [|c B].
  { exists h, (set_sl_prevs pc l). cbn [is_nil]. do 3 (split; [solve [auto]|]). split; [reflexivity|]. now apply rep_prevs. }
  destruct (eqk (ck c) key) eqn:Ek; cbn [is_nil].
  2:{ exists h, (set_sl_prevs pc l). do 3 (split; [solve [auto]|]). split; [reflexivity|]. now apply rep_prevs. }
  assert (Ic : In c (A ++ c :: B)) by (apply in_app_iff; right; now left).
  pose proof (rep_cell _ _ _ _ _ _ R Ic) as Nc. pose proof (rep_next _ _ _ _ _ _ _ R) as Nx0.
  destruct (nth_error h (ca c)) as [n|] eqn:En; [|unfold nd in Nc; rewrite En in Nc; discriminate].
  rewrite (bind_eq _ _ _ _ _ (pload_ok h _ _ _ En)).
  assert (Ll : length (n_next n) = ch c) by (unfold nd in Nc; rewrite En in Nc; cbn in Nc; now injection Nc). rewrite Ll.
  destruct R as [Kp Hd Ce Cn Nn Ab Lvl He Ex Pvl Le Hh]; cbn [fst snd] in *.
  destruct (unlink_loop_ok hd A c B pc l (sl_level l) Nn Pv ltac:(lia) (ch c) 0 h) as (h1 & E1 & Lk1 & Nd1 & Nx1 & Ln1 & Kp1); try (specialize (He c Ic); lia).
  { intros j Lj. cbn [Nat.leb andb]. specialize (Cn j Lj). rewrite tall_app in Cn. cbn [tall filter] in Cn. destruct (Nat.ltb j (ch c)); exact Cn. }
  rewrite (bind_eq _ _ _ _ _ E1), bind_hget. change (sl_level (set_sl_prevs pc l)) with (sl_level l).
  assert (Ch1 : forall i, (i < skipListMaxLevel)%nat -> chain h1 i hd (tall i (A ++ B))).
  { intros i Li. specialize (Lk1 i Li). rewrite tall_app. replace (Nat.leb (ch c) i && Nat.ltb i (ch c)) with false in Lk1; [exact Lk1|].
    destruct (Nat.leb_spec (ch c) i), (Nat.ltb_spec i (ch c)); cbn; auto; lia. }
  destruct (shrink_loop_ok hd (A ++ B) h1 Ch1 (S (sl_level l)) (set_sl_prevs pc l)) as (lv & E2 & Blv & H1 & H2); cbn; auto; try lia.
  { intros d I. apply He. apply in_app_iff in I as [I|I]; apply in_app_iff; [now left|right; now right]. }
  rewrite (bind_eq _ _ _ _ _ E2), bind_hget, bind_hmod.
  eexists h1, _. split; auto. split; auto. split; auto. split; [reflexivity|]. split; [|now rewrite Nx1].
  assert (Sub : forall a, In a (hd :: addrs (A ++ B)) -> In a (hd :: addrs (A ++ c :: B))).
  { intros a [<-|I]; [now left|]. right. unfold addrs in *. rewrite map_app in *. cbn. apply in_app_iff in I as [I|I]; apply in_app_iff; [now left|right; now right]. }
  constructor; cbn [fst snd set_sl_len set_sl_level set_sl_prevs sl_level sl_len sl_head sl_prevs] in *; auto.
  - apply Kp1; auto. intros a I. apply Ab. destruct I as [<-|I]; [now left|]. right. unfold addrs. rewrite map_app. apply in_app_iff. now left.
  - destruct Hd as (k & v & Eh). exists k, v. now rewrite Nd1.
  - apply Forall_forall. intros d I. unfold cellok. rewrite Nd1. rewrite Forall_forall in Ce. apply Ce. apply in_app_iff in I as [I|I]; apply in_app_iff; [now left|right; now right].
  - unfold addrs in *. rewrite map_app in *. cbn [map] in Nn. change (hd :: map ca A ++ ca c :: map ca B) with ((hd :: map ca A) ++ ca c :: map ca B) in Nn. now apply NoDup_remove_1 in Nn.
  - lia.
  - rewrite Le. unfold zlen. rewrite !app_length. cbn [length]. lia.
Qed.

(** *** Clear *)
Lemma clear_loop_ok hd l : sl_head l = Some hd -> forall todo i h, (i + todo = skipListMaxLevel)%nat ->
  (forall j, (j < skipListMaxLevel)%nat -> exists q, nx h hd j = Some q) -> (forall j, (j < i)%nat -> nx h hd j = Some None) ->
  exists h', clear_loop (K := K) (V := V) todo i (h, l) = (Ok tt, (h', l)) /\ (forall j, (j < skipListMaxLevel)%nat -> nx h' hd j = Some None) /\ (forall a, nd h' a = nd h a) /\
    (forall fr, keeps fr h -> fr hd = None -> keeps fr h').
Proof.
  intros Hh. induction todo as [|todo IH]; intros i h Li Nx Dn; cbn [clear_loop].
  - exists h. split; auto. split; [intros j Lj; apply Dn; lia|]. split; auto.
  - rewrite bind_hget, Hh. destruct (Nx i ltac:(lia)) as [q Nq]. rewrite (bind_eq _ _ _ _ _ (st_next_ok h l _ _ _ _ Nq)).
    destruct (IH (S i) (sn hd i None h)) as (h' & E & D & Nd & Kp); [lia| | |].
    + intros j Lj. rewrite (nx_sn _ _ _ _ _ _ _ Nq). destruct (_ && _); eauto.
    + intros j Lj. rewrite (nx_sn _ _ _ _ _ _ _ Nq), Nat.eqb_refl. destruct (Nat.eqb_spec i j); [reflexivity|]. cbn. apply Dn. lia.
    + exists h'. split; auto. split; auto. split; [intros a; rewrite Nd; apply nd_sn|]. intros fr K0 L0. apply Kp; auto. now apply keeps_sn.
Qed.
Lemma Clear_ok fr hd ps h l : rep fr hd ps (h, l) -> exists s', Clear (K := K) (V := V) (h, l) = (Ok tt, s') /\ rep fr hd [] s'.
Proof.
  intros R. unfold Clear. destruct R as [Kp (k & v & Hd) Ce Cn Nn Ab Lvl He Ex Pvl Le Hh]; cbn [fst snd] in *. rewrite bind_hget, Hh.
  destruct (nth_error h hd) as [n|] eqn:En; [|unfold nd in Hd; rewrite En in Hd; discriminate]. rewrite (bind_eq _ _ _ _ _ (pload_ok h _ _ _ En)).
  assert (Ll : length (n_next n) = skipListMaxLevel) by (unfold nd in Hd; rewrite En in Hd; cbn in Hd; now injection Hd). rewrite Ll.
  destruct (clear_loop_ok hd l Hh skipListMaxLevel 0 h) as (h' & E & D & Nd & Kp'); auto; [intros j Lj; exact (nd_nx _ _ _ _ _ _ Hd Lj)|lia|].
  rewrite (bind_eq _ _ _ _ _ E), bind_hmod. eexists. split; [reflexivity|].
  constructor; cbn [fst snd set_sl_len set_sl_level set_sl_prevs sl_level sl_len sl_head sl_prevs]; auto.
  - apply Kp'; auto. apply Ab. now left.
  - exists k, v. now rewrite Nd.
  - intros i Li. cbn. split; [exact I|]. now apply D.
  - constructor; [tauto|constructor].
  - intros a [<-|[]]. apply Ab. now left.
  - lia.
  - intros c [].
Qed.
Lemma init_ok zk zv h0 l0 : exists s', init zk zv (h0, l0) = (Ok tt, s') /\ rep (nth_error h0) (length h0) [] s'.
Proof.
  unfold init. rewrite bind_pnew. eexists. split; [reflexivity|]. cbn [hmod].
  constructor; cbn [fst snd sl_level sl_len sl_head sl_prevs]; auto.
  - apply keeps_app, keeps_refl.
  - exists zk, zv. rewrite nd_new, Nat.eqb_refl. cbn. now rewrite repeat_length.
  - intros i Li. split; [exact I|]. cbn. rewrite nx_new, Nat.eqb_refl. cbn. now apply nth_error_repeat.
  - constructor; [tauto|constructor].
  - intros a [<-|[]]. apply nth_error_None. lia.
  - pose proof (randomLevel_range 0 0). lia.
  - intros c [].
Qed.

(** *** Iterators and callbacks *)
Lemma addrs_app X Y : addrs (X ++ Y) = addrs X ++ addrs Y.
Proof. apply map_app. Qed.
Lemma kvs_app X Y : kvs (X ++ Y) = kvs X ++ kvs Y.
Proof. apply map_app. Qed.
Lemma rep_nodup fr hd ps s : rep fr hd ps s -> NoDup (addrs ps).
Proof. intros R. pose proof (r_nodup _ _ _ _ R) as N. now inversion N. Qed.
Lemma NoDup_app_r {T} (a b : list T) : NoDup (a ++ b) -> NoDup b.
Proof. induction a as [|x a IH]; cbn; auto. intros N. apply IH. now inversion N. Qed.
Lemma firstp_ne c X E : NoDup (addrs (c :: X ++ E)) -> peqb (Some (ca c)) (firstp E) = false.
Proof.
  intros ND. destruct E as [|e E]; cbn; [reflexivity|]. apply Nat.eqb_neq. intros Eq. cbn in ND. apply NoDup_cons_iff in ND as [NI _]. apply NI. rewrite addrs_app. apply in_app_iff. right. left. auto.
Qed.
Lemma iter_loop_ok fr hd B E h l : forall A fuel seen, rep fr hd (A ++ B ++ E) (h, l) -> (length B < fuel)%nat ->
  iter_loop fuel (firstp (B ++ E), firstp E) seen (h, l) = (Ok (seen ++ kvs B), (h, l)).
Proof.
  induction B as [|c B IH]; intros A fuel seen R L; (destruct fuel as [|fuel]; [cbn in L; lia|]); cbn [iter_loop].
  - unfold IsNotEnd. cbn [fst snd app]. assert (peqb (firstp E) (firstp E) = true) as -> by (destruct E as [|e E]; cbn; [reflexivity|apply Nat.eqb_refl]). cbn. now rewrite app_nil_r.
  - unfold IsNotEnd. cbn [app firstp fst snd]. rewrite (firstp_ne c B E).
    2:{ pose proof (rep_nodup _ _ _ _ R) as ND. rewrite addrs_app in ND. apply NoDup_app_r in ND. exact ND. }
    cbn [negb]. unfold Key, Value, MoveToNext. cbn [fst snd].
    assert (I : In c (A ++ (c :: B) ++ E)) by (apply in_app_iff; right; now left). pose proof (rep_cell _ _ _ _ _ _ R I) as Nc.
    rewrite (bind_eq _ _ _ _ _ (ld_key_ok _ _ _ _ _ _ Nc)), (bind_eq _ _ _ _ _ (ld_value_ok _ _ _ _ _ _ Nc)).
    erewrite bind_eq; [|rewrite (bind_eq _ _ _ _ _ (ld_next_ok _ _ _ _ _ (rep_next _ _ A c (B ++ E) _ _ R))); reflexivity].
    rewrite (IH (A ++ [c])); [|rewrite <- app_assoc; exact R|cbn in L; lia]. cbn [kvs map]. now rewrite <- app_assoc.
Qed.
Lemma iter_loop_panic fr hd B e h l : forall A fuel seen, rep fr hd (A ++ B) (h, l) -> ~ In e (addrs B) -> (length B < fuel)%nat ->
  iter_loop fuel (firstp B, Some e) seen (h, l) = (Panic, (h, l)).
Proof.
  induction B as [|c B IH]; intros A fuel seen R NI L; (destruct fuel as [|fuel]; [cbn in L; lia|]); cbn [iter_loop].
  - reflexivity.
  - unfold IsNotEnd. cbn [app firstp fst snd]. assert (peqb (Some (ca c)) (Some e) = false) as -> by (cbn; apply Nat.eqb_neq; intros E; apply NI; left; auto).
    cbn [negb]. unfold Key, Value, MoveToNext. cbn [fst snd].
    assert (I : In c (A ++ c :: B)) by (apply in_app_iff; right; now left). pose proof (rep_cell _ _ _ _ _ _ R I) as Nc.
    rewrite (bind_eq _ _ _ _ _ (ld_key_ok _ _ _ _ _ _ Nc)), (bind_eq _ _ _ _ _ (ld_value_ok _ _ _ _ _ _ Nc)).
    erewrite bind_eq; [|rewrite (bind_eq _ _ _ _ _ (ld_next_ok _ _ _ _ _ (rep_next _ _ A c B _ _ R))); reflexivity].
    apply (IH (A ++ [c])); [rewrite <- app_assoc; exact R| |cbn in L; lia]. intros I2. apply NI. now right.
Qed.
Lemma walk_all fr hd A B h l m : rep fr hd (A ++ B) (h, l) -> m (h, l) = (Ok (firstp B, None), (h, l)) -> walk m (h, l) = (Ok (kvs B), (h, l)).
Proof.
  intros R E. unfold walk. rewrite bind_fuel, (bind_eq _ _ _ _ _ E). pose proof (rep_fuel _ _ _ _ _ R) as L. rewrite app_length in L.
  pose proof (iter_loop_ok fr hd B [] h l A (S (length h)) [] ltac:(now rewrite app_nil_r) ltac:(lia)) as W. rewrite app_nil_r in W. exact W.
Qed.

Section Callbacks.
Context {St : Type}.
Lemma ForEach_ok (cb : St -> K * V -> St) fr hd ps h l st : rep fr hd ps (h, l) -> ForEach cb st (h, l) = (Ok (fold_left cb (kvs ps) st), (h, l)).
Proof.
  intros R. unfold ForEach. rewrite bind_fuel, bind_hget. pose proof (r_head _ _ _ _ R) as Hh. cbn in Hh. rewrite Hh.
  rewrite (bind_eq _ _ _ _ _ (ld_next_ok _ _ _ _ _ (chain_first _ _ _ _ (rep_chain0 _ _ _ _ _ R)))). pose proof (rep_fuel _ _ _ _ _ R) as L.
  assert (G : forall B A fuel st, rep fr hd (A ++ B) (h, l) -> (length B < fuel)%nat -> ForEach_loop cb fuel (firstp B) st (h, l) = (Ok (fold_left cb (kvs B) st), (h, l))).
  { induction B as [|c B IH]; intros A fuel st' R' L'; (destruct fuel as [|fuel]; [cbn in L'; lia|]); cbn [ForEach_loop firstp is_nil]; [reflexivity|].
    assert (I : In c (A ++ c :: B)) by (apply in_app_iff; right; now left). pose proof (rep_cell _ _ _ _ _ _ R' I) as Nc.
    rewrite (bind_eq _ _ _ _ _ (ld_key_ok _ _ _ _ _ _ Nc)), (bind_eq _ _ _ _ _ (ld_value_ok _ _ _ _ _ _ Nc)). cbn zeta.
    rewrite (bind_eq _ _ _ _ _ (ld_next_ok _ _ _ _ _ (rep_next _ _ A c B _ _ R'))). apply (IH (A ++ [c])); [rewrite <- app_assoc; exact R'|cbn in L'; lia]. }
  apply (G ps []); auto.
Qed.
Lemma ForEachIf_ok (cb : St -> K * V -> bool * St) fr hd ps h l st : rep fr hd ps (h, l) -> ForEachIf cb st (h, l) = (Ok (fold_while cb st (kvs ps)), (h, l)).
Proof.
  intros R. unfold ForEachIf. rewrite bind_fuel, bind_hget. pose proof (r_head _ _ _ _ R) as Hh. cbn in Hh. rewrite Hh.
  rewrite (bind_eq _ _ _ _ _ (ld_next_ok _ _ _ _ _ (chain_first _ _ _ _ (rep_chain0 _ _ _ _ _ R)))). pose proof (rep_fuel _ _ _ _ _ R) as L.
  assert (G : forall B A fuel st, rep fr hd (A ++ B) (h, l) -> (length B < fuel)%nat -> ForEachIf_loop cb fuel (firstp B) st (h, l) = (Ok (fold_while cb st (kvs B)), (h, l))).
  { induction B as [|c B IH]; intros A fuel st' R' L'; (destruct fuel as [|fuel]; [cbn in L'; lia|]); cbn [ForEachIf_loop firstp is_nil]; [reflexivity|].
    assert (I : In c (A ++ c :: B)) by (apply in_app_iff; right; now left). pose proof (rep_cell _ _ _ _ _ _ R' I) as Nc.
    rewrite (bind_eq _ _ _ _ _ (ld_key_ok _ _ _ _ _ _ Nc)), (bind_eq _ _ _ _ _ (ld_value_ok _ _ _ _ _ _ Nc)). cbn [kvs map fold_while].
    destruct (cb st' (ck c, cv c)) as [go st2]. destruct go; cbn [negb]; [|reflexivity].
    rewrite (bind_eq _ _ _ _ _ (ld_next_ok _ _ _ _ _ (rep_next _ _ A c B _ _ R'))). apply (IH (A ++ [c])); [rewrite <- app_assoc; exact R'|cbn in L'; lia]. }
  apply (G ps []); auto.
Qed.
Lemma put_mid A c B v : NoDup (addrs (A ++ c :: B)) -> put (ca c) v (A ++ c :: B) = A ++ set_cv v c :: B.
Proof.
  intros ND. rewrite addrs_app in ND. cbn [addrs map] in ND. apply NoDup_remove_2 in ND. unfold put. rewrite map_app. cbn [map]. rewrite Nat.eqb_refl. f_equal; [|f_equal].
  - rewrite <- (map_id A) at 2. apply map_ext_in. intros d I. destruct (Nat.eqb_spec (ca d) (ca c)) as [E|]; auto. exfalso. apply ND. apply in_app_iff. left. rewrite <- E. now apply in_map.
  - rewrite <- (map_id B) at 2. apply map_ext_in. intros d I. destruct (Nat.eqb_spec (ca d) (ca c)) as [E|]; auto. exfalso. apply ND. apply in_app_iff. right. rewrite <- E. now apply in_map.
Qed.
Lemma set_mid fr hd A c B h l v : rep fr hd (A ++ c :: B) (h, l) -> rep fr hd (A ++ set_cv v c :: B) (sv (ca c) v h, l).
Proof. intros R. rewrite <- put_mid by (eapply rep_nodup; eauto). apply rep_put; auto. rewrite addrs_app. apply in_app_iff. right. now left. Qed.
(** The same on cells. *)
Definition mut (cb : St -> K * V -> V * St) st c := let '(v, st') := cb st (ck c, cv c) in (set_cv v c, st').
Definition mutif (cb : St -> K * V -> V * bool * St) st c := let '(v, go, st') := cb st (ck c, cv c) in (set_cv v c, go, st').
Definition same_shape X Y := map (fun c => (ca c, ch c, ck c)) X = map (fun c => (ca c, ch c, ck c)) Y.
Lemma mut_kvs cb B : forall st, map_st (fun st p => let '(v, st') := cb st p in ((fst p, v), st')) st (kvs B) = (kvs (fst (map_st (mut cb) st B)), snd (map_st (mut cb) st B)) /\ same_shape (fst (map_st (mut cb) st B)) B.
Proof.
  induction B as [|c B IH]; intros st; [split; reflexivity|]. cbn [kvs map map_st]. unfold mut at 1 3 5. cbn [fst]. destruct (cb st (ck c, cv c)) as [v st'].
  destruct (IH st') as [E S]. change (map (fun c0 : cell => (ck c0, cv c0)) B) with (kvs B). rewrite E. destruct (map_st (mut cb) st' B) as [B' st2]. cbn in *. split; [reflexivity|]. unfold same_shape in *. cbn. now rewrite S.
Qed.
Lemma mutif_kvs cb B : forall st, map_while (fun st p => let '(v, go, st') := cb st p in ((fst p, v), go, st')) st (kvs B) = (kvs (fst (map_while (mutif cb) st B)), snd (map_while (mutif cb) st B)) /\ same_shape (fst (map_while (mutif cb) st B)) B.
Proof.
  induction B as [|c B IH]; intros st; [split; reflexivity|]. cbn [kvs map map_while]. unfold mutif at 1 3 5. cbn [fst]. destruct (cb st (ck c, cv c)) as [[v go] st'].
  destruct go; [|cbn; split; reflexivity].
  destruct (IH st') as [E S]. change (map (fun c0 : cell => (ck c0, cv c0)) B) with (kvs B). rewrite E. destruct (map_while (mutif cb) st' B) as [B' st2]. cbn in *. split; [reflexivity|]. unfold same_shape in *. cbn. now rewrite S.
Qed.
Lemma ForEachMutable_ok (cb : St -> K * V -> V * St) fr hd ps h l st : rep fr hd ps (h, l) ->
  exists s', ForEachMutable cb st (h, l) = (Ok (snd (map_st (mut cb) st ps)), s') /\ rep fr hd (fst (map_st (mut cb) st ps)) s'.
Proof.
  intros R. unfold ForEachMutable. rewrite bind_fuel, bind_hget. pose proof (r_head _ _ _ _ R) as Hh. cbn in Hh. rewrite Hh.
  rewrite (bind_eq _ _ _ _ _ (ld_next_ok _ _ _ _ _ (chain_first _ _ _ _ (rep_chain0 _ _ _ _ _ R)))). pose proof (rep_fuel _ _ _ _ _ R) as L.
  assert (G : forall B A fuel st h, rep fr hd (A ++ B) (h, l) -> (length B < fuel)%nat ->
    exists s', ForEachMutable_loop cb fuel (firstp B) st (h, l) = (Ok (snd (map_st (mut cb) st B)), s') /\ rep fr hd (A ++ fst (map_st (mut cb) st B)) s').
  { clear. induction B as [|c B IH]; intros A fuel st h R' L'; (destruct fuel as [|fuel]; [cbn in L'; lia|]); cbn [ForEachMutable_loop firstp is_nil map_st]; [eexists; split; [reflexivity|exact R']|].
    assert (I : In c (A ++ c :: B)) by (apply in_app_iff; right; now left). pose proof (rep_cell _ _ _ _ _ _ R' I) as Nc.
    rewrite (bind_eq _ _ _ _ _ (ld_key_ok _ _ _ _ _ _ Nc)), (bind_eq _ _ _ _ _ (ld_value_ok _ _ _ _ _ _ Nc)). unfold mut at 1 3.
    destruct (cb st (ck c, cv c)) as [v st2]. rewrite (bind_eq _ _ _ _ _ (st_value_ok _ _ _ v _ Nc)). pose proof (set_mid _ _ _ _ _ _ _ v R') as R2.
    pose proof (rep_next _ _ A (set_cv v c) B _ _ R2) as N2. cbn [ca set_cv] in N2. rewrite (bind_eq _ _ _ _ _ (ld_next_ok _ _ _ _ _ N2)).
    destruct (IH (A ++ [set_cv v c]) fuel st2 (sv (ca c) v h)) as (s' & E & R3); [rewrite <- app_assoc; exact R2|cbn in L'; lia|]. exists s'. rewrite E.
    destruct (map_st (mut cb) st2 B). cbn in *. split; auto. now rewrite <- app_assoc in R3. }
  apply (G ps []); auto.
Qed.
Lemma ForEachMutableIf_ok (cb : St -> K * V -> V * bool * St) fr hd ps h l st : rep fr hd ps (h, l) ->
  exists s', ForEachMutableIf cb st (h, l) = (Ok (snd (map_while (mutif cb) st ps)), s') /\ rep fr hd (fst (map_while (mutif cb) st ps)) s'.
Proof.
  intros R. unfold ForEachMutableIf. rewrite bind_fuel, bind_hget. pose proof (r_head _ _ _ _ R) as Hh. cbn in Hh. rewrite Hh.
  rewrite (bind_eq _ _ _ _ _ (ld_next_ok _ _ _ _ _ (chain_first _ _ _ _ (rep_chain0 _ _ _ _ _ R)))). pose proof (rep_fuel _ _ _ _ _ R) as L.
  assert (G : forall B A fuel st h, rep fr hd (A ++ B) (h, l) -> (length B < fuel)%nat ->
    exists s', ForEachMutableIf_loop cb fuel (firstp B) st (h, l) = (Ok (snd (map_while (mutif cb) st B)), s') /\ rep fr hd (A ++ fst (map_while (mutif cb) st B)) s').
  { clear. induction B as [|c B IH]; intros A fuel st h R' L'; (destruct fuel as [|fuel]; [cbn in L'; lia|]); cbn [ForEachMutableIf_loop firstp is_nil map_while]; [eexists; split; [reflexivity|exact R']|].
    assert (I : In c (A ++ c :: B)) by (apply in_app_iff; right; now left). pose proof (rep_cell _ _ _ _ _ _ R' I) as Nc.
    rewrite (bind_eq _ _ _ _ _ (ld_key_ok _ _ _ _ _ _ Nc)), (bind_eq _ _ _ _ _ (ld_value_ok _ _ _ _ _ _ Nc)). unfold mutif at 1 3.
    destruct (cb st (ck c, cv c)) as [[v go] st2]. rewrite (bind_eq _ _ _ _ _ (st_value_ok _ _ _ v _ Nc)). pose proof (set_mid _ _ _ _ _ _ _ v R') as R2.
    destruct go; cbn [negb]; [|eexists; split; [reflexivity|exact R2]].
    pose proof (rep_next _ _ A (set_cv v c) B _ _ R2) as N2. cbn [ca set_cv] in N2. rewrite (bind_eq _ _ _ _ _ (ld_next_ok _ _ _ _ _ N2)).
    destruct (IH (A ++ [set_cv v c]) fuel st2 (sv (ca c) v h)) as (s' & E & R3); [rewrite <- app_assoc; exact R2|cbn in L'; lia|]. exists s'. rewrite E.
    destruct (map_while (mutif cb) st2 B). cbn in *. split; auto. now rewrite <- app_assoc in R3. }
  apply (G ps []); auto.
Qed.
End Callbacks.

(** *** With an order *)
Section Order.
Variable lt : K -> K -> bool.
Hypothesis SW : strict_weak lt.
(** Keys on which the comparisons agree with the order (all but NaN). *)
Variable good : K -> bool.
Hypothesis Eq : forall a b : K, good a = true -> good b = true -> eqk a b = eqv lt a b.
Hypothesis Gt : forall a b : K, good a = true -> good b = true -> gtk a b = lt b a.
Notation allgood m := (Forall (fun p : K * V => good (fst p) = true) m).
Notation below k m := (Forall (fun p : K * V => lt (fst p) k = true) m).
Notation same k m := (Forall (fun p : K * V => eqv lt (fst p) k = true) m).
Notation above k m := (Forall (fun p : K * V => lt k (fst p) = true) m).
Definition ksorted (m : list (K * V)) : Prop := StronglySorted (fun p q => lt (fst p) (fst q) = true) m.

Lemma lt_asym (a b : K) : lt a b = true -> lt b a = false.
Proof using SW. intros H. destruct (lt b a) eqn:E; auto. pose proof (sw_trans _ SW _ _ _ H E) as F. rewrite (sw_irrefl _ SW) in F. discriminate. Qed.
Lemma eqv_true (a b : K) : eqv lt a b = true <-> lt a b = false /\ lt b a = false.
Proof. unfold eqv. rewrite andb_true_iff, !negb_true_iff. tauto. Qed.
Lemma eqv_false_l (a b : K) : lt a b = true -> eqv lt a b = false.
Proof. unfold eqv. intros ->. reflexivity. Qed.
Lemma eqv_false_r (a b : K) : lt b a = true -> eqv lt a b = false.
Proof. unfold eqv. intros ->. apply andb_false_r. Qed.
Lemma lt_eqv_r (a b c : K) : lt a b = true -> eqv lt b c = true -> lt a c = true.
Proof using SW. intros H1 H2. apply eqv_true in H2 as [_ H2]. destruct (lt a c) eqn:E; auto. rewrite (sw_negtrans _ SW _ _ _ E H2) in H1. discriminate. Qed.
Lemma lt_eqv_l (a b c : K) : eqv lt a b = true -> lt a c = true -> lt b c = true.
Proof using SW. intros H1 H2. apply eqv_true in H1 as [H1 _]. destruct (lt b c) eqn:E; auto. rewrite (sw_negtrans _ SW _ _ _ H1 E) in H2. discriminate. Qed.

Lemma filter_all {T} (f : T -> bool) (l : list T) : Forall (fun x => f x = true) l -> filter f l = l.
Proof. induction 1; cbn; auto. rewrite H. congruence. Qed.
Lemma filter_none {T} (f : T -> bool) (l : list T) : Forall (fun x => f x = false) l -> filter f l = [].
Proof. induction 1; cbn; auto. rewrite H. auto. Qed.
Lemma existsb_none {T} (f : T -> bool) (l : list T) : Forall (fun x => f x = false) l -> existsb f l = false.
Proof. induction 1; cbn; auto. rewrite H. auto. Qed.
Lemma Forall_imp {T} (P Q : T -> Prop) (l : list T) : (forall x, P x -> Q x) -> Forall P l -> Forall Q l.
Proof. intros H. apply Forall_impl. auto. Qed.

Section Pos.
Variables (k : K) (A M B : list (K * V)).
Hypotheses (HA : below k A) (HM : same k M) (HB : above k B).
Lemma pos_has : has lt k (A ++ M ++ B) = match M with [] => false | _ => true end.
Proof using HA HM HB.
  unfold has. rewrite !existsb_app. rewrite (existsb_none _ A), (existsb_none _ B).
  - destruct M as [|p r]; auto. inversion HM; subst. cbn. now rewrite H1.
  - eapply Forall_imp; [|exact HB]. intros p H. now apply eqv_false_r.
  - eapply Forall_imp; [|exact HA]. intros p H. now apply eqv_false_l.
Qed.
Lemma pos_set v : set_value lt k v (A ++ M ++ B) = A ++ map (fun p => (fst p, v)) M ++ B.
Proof using HA HM HB.
  unfold set_value. rewrite !map_app. f_equal; [|f_equal].
  - rewrite <- (map_id A) at 2. apply map_ext_in. intros p I. rewrite Forall_forall in HA. now rewrite eqv_false_l by auto.
  - apply map_ext_in. intros p I. rewrite Forall_forall in HM. now rewrite HM.
  - rewrite <- (map_id B) at 2. apply map_ext_in. intros p I. rewrite Forall_forall in HB. now rewrite eqv_false_r by auto.
Qed.
Lemma pos_remove : remove lt k (A ++ M ++ B) = A ++ B.
Proof using HA HM HB.
  unfold remove. rewrite !filter_app. rewrite (filter_all _ A), (filter_none _ M), (filter_all _ B); auto.
  - eapply Forall_imp; [|exact HB]. intros p H. cbn. now rewrite eqv_false_r.
  - eapply Forall_imp; [|exact HM]. intros p H. cbn. now rewrite H.
  - eapply Forall_imp; [|exact HA]. intros p H. cbn. now rewrite eqv_false_l.
Qed.
Lemma find_app_ {T} (f : T -> bool) (l1 l2 : list T) : find f (l1 ++ l2) = match find f l1 with Some x => Some x | None => find f l2 end.
Proof. induction l1 as [|x l IH]; cbn; auto. destruct (f x); auto. Qed.
Lemma find_none_ {T} (f : T -> bool) (l : list T) : Forall (fun x => f x = false) l -> find f l = None.
Proof. induction 1; cbn; auto. now rewrite H. Qed.
Lemma pos_lookup : lookup lt k (A ++ M ++ B) = match M with [] => None | p :: _ => Some (snd p) end.
Proof using HA HM HB.
  unfold lookup. rewrite !find_app_, (find_none_ _ A). 2:{ eapply Forall_imp; [|exact HA]. intros p H. now apply eqv_false_l. }
  destruct M as [|p r]; cbn. 2:{ inversion HM; subst. now rewrite H1. }
  rewrite (find_none_ _ B); auto. eapply Forall_imp; [|exact HB]. intros p H. now apply eqv_false_r.
Qed.
Lemma pos_lower : filter (fun p => negb (lt (fst p) k)) (A ++ M ++ B) = M ++ B.
Proof using HA HM HB SW.
  rewrite !filter_app. rewrite (filter_none _ A), (filter_all _ M), (filter_all _ B); auto.
  - eapply Forall_imp; [|exact HB]. intros p H. cbn. now rewrite (lt_asym _ _ H).
  - eapply Forall_imp; [|exact HM]. intros p H. cbn. apply eqv_true in H as [-> _]. reflexivity.
  - eapply Forall_imp; [|exact HA]. intros p H. cbn. now rewrite H.
Qed.
Lemma pos_upper : filter (fun p => lt k (fst p)) (A ++ M ++ B) = B.
Proof using HA HM HB SW.
  rewrite !filter_app. rewrite (filter_none _ A), (filter_none _ M), (filter_all _ B); auto.
  - eapply Forall_imp; [|exact HM]. intros p H. cbn. apply eqv_true in H as [_ ->]. reflexivity.
  - eapply Forall_imp; [|exact HA]. intros p H. cbn. now rewrite (lt_asym _ _ H).
Qed.
Lemma pos_insert v : M = [] -> insert lt k v (A ++ M ++ B) = A ++ (k, v) :: B.
Proof using HA HM HB SW.
  intros EM. unfold insert. rewrite pos_has, EM. rewrite EM in *. cbn [app]. rewrite !filter_app. rewrite (filter_all _ A), (filter_none _ B), (filter_none _ A), (filter_all _ B), app_nil_r; auto.
  - eapply Forall_imp; [|exact HA]. intros p H. cbn. now rewrite (lt_asym _ _ H).
  - eapply Forall_imp; [|exact HB]. intros p H. cbn. now rewrite (lt_asym _ _ H).
Qed.
End Pos.

Lemma kvs_below k A : below k (kvs A) <-> Forall (fun c => lt (ck c) k = true) A.
Proof. unfold kvs. rewrite Forall_map. reflexivity. Qed.
Lemma kvs_above k A : above k (kvs A) <-> Forall (fun c => lt k (ck c) = true) A.
Proof. unfold kvs. rewrite Forall_map. reflexivity. Qed.
Lemma SS_app_inv {T} (R : T -> T -> Prop) (l1 l2 : list T) : StronglySorted R (l1 ++ l2) -> StronglySorted R l1 /\ StronglySorted R l2 /\ Forall (fun x => Forall (R x) l2) l1.
Proof.
  induction l1 as [|x l1 IH]; cbn; intros H; [repeat split; auto; constructor|]. inversion H; subst. destruct (IH H2) as (I1 & I2 & I3). apply Forall_app in H3 as [F1 F2].
  repeat split; auto; constructor; auto.
Qed.
Lemma SS_app {T} (R : T -> T -> Prop) (l1 l2 : list T) : StronglySorted R l1 -> StronglySorted R l2 -> Forall (fun x => Forall (R x) l2) l1 -> StronglySorted R (l1 ++ l2).
Proof.
  induction l1 as [|x l1 IH]; cbn; auto. intros H1 H2 H3. inversion H1; subst. inversion H3; subst. constructor; auto. apply Forall_app. auto.
Qed.
Lemma Forall_snoc {T} (P : T -> Prop) (l : list T) x : Forall P l -> P x -> Forall P (l ++ [x]).
Proof. intros. apply Forall_app. auto. Qed.
(** From the split a search ends with to the position in the map. *)
Lemma last_below k A B : ksorted (kvs (A ++ B)) -> (A = [] \/ exists A' c, A = A' ++ [c] /\ lt (ck c) k = true) -> below k (kvs A).
Proof using SW.
  intros S [->|(A' & c & -> & H)]; [constructor|]. rewrite !kvs_app in *. apply SS_app_inv in S as (S & _ & _). apply SS_app_inv in S as (_ & _ & F). cbn in F.
  apply Forall_snoc; auto. eapply Forall_imp; [|exact F]. intros p Fp. inversion Fp; subst. cbn in H2. exact (sw_trans _ SW _ _ _ H2 H).
Qed.
Lemma first_above k A c B : ksorted (kvs (A ++ c :: B)) -> lt k (ck c) = true -> above k (kvs (c :: B)).
Proof using SW.
  intros S H. rewrite kvs_app in S. apply SS_app_inv in S as (_ & S & _). cbn [kvs map] in S. inversion S; subst. constructor; auto. eapply Forall_imp; [|exact H3].
  intros p Fp. exact (sw_trans _ SW _ _ _ H Fp).
Qed.
Lemma found_pos k A c B : ksorted (kvs (A ++ c :: B)) -> eqv lt (ck c) k = true -> below k (kvs A) /\ same k (kvs [c]) /\ above k (kvs B).
Proof using SW.
  intros S H. rewrite kvs_app in S. apply SS_app_inv in S as (_ & S2 & F). cbn [kvs map] in S2, F. inversion S2; subst. split; [|split].
  - eapply Forall_imp; [|exact F]. intros p Fp. inversion Fp; subst. cbn in H4. exact (lt_eqv_r _ _ _ H4 H).
  - repeat constructor. exact H.
  - eapply Forall_imp; [|exact H3]. intros p Fp. cbn in Fp. exact (lt_eqv_l _ _ _ H Fp).
Qed.
Lemma good_cell ps c : allgood (kvs ps) -> In c ps -> good (ck c) = true.
Proof. intros G I. rewrite Forall_forall in G. apply (G (ck c, cv c)). now apply (in_map (fun c => (ck c, cv c))). Qed.
Lemma in_mid A c B : In c (A ++ c :: B).
Proof. apply in_app_iff. right. now left. Qed.
Lemma in_mid2 A c B : In c ((A ++ [c]) ++ B).
Proof. rewrite <- app_assoc. apply in_mid. Qed.
Lemma parts_pos k A B : allgood (kvs (A ++ B)) -> good k = true -> ksorted (kvs (A ++ B)) -> parts eqk gtk k A B -> below k (kvs A) /\ above k (kvs B).
Proof using SW Eq Gt.
  intros G Gk S [LP Bl]. split.
  - apply (last_below k A B S). destruct LP as [->|(A' & c & -> & P1 & P2)]; auto. right. exists A', c. split; auto. pose proof (good_cell _ _ G (in_mid2 A' c B)) as Gc. rewrite Eq in P1 by auto. rewrite Gt in P2 by auto.
    unfold eqv in P1. rewrite P2 in P1. rewrite andb_true_r in P1. now apply negb_false_iff in P1.
  - destruct B as [|c B]; [constructor|]. destruct Bl as [_ P2]. pose proof (good_cell _ _ G (in_mid A c B)) as Gc. rewrite Gt in P2 by auto. exact (first_above k A c B S P2).
Qed.
Lemma remove_parts_pos k A B : allgood (kvs (A ++ B)) -> good k = true -> ksorted (kvs (A ++ B)) -> remove_parts eqk gtk k A B ->
  below k (kvs A) /\ match B with [] => True | c :: B' => if eqk (ck c) k then same k (kvs [c]) /\ above k (kvs B') else above k (kvs B) end.
Proof using SW Eq Gt.
  intros G Gk S [LP Bl]. split.
  - apply (last_below k A B S). destruct LP as [->|(A' & c & -> & P1 & P2)]; auto. right. exists A', c. split; auto. unfold gek in P2. pose proof (good_cell _ _ G (in_mid2 A' c B)) as Gc. rewrite Eq, Gt in P2 by auto.
    apply orb_false_iff in P2 as [P2 P3]. unfold eqv in P3. rewrite P2 in P3. rewrite andb_true_r in P3. now apply negb_false_iff in P3.
  - destruct B as [|c B]; [exact I|]. destruct Bl as [_ P2]. unfold gek in P2. pose proof (good_cell _ _ G (in_mid A c B)) as Gc. rewrite Gt in P2 by auto. destruct (eqk (ck c) k) eqn:Ek.
    + rewrite Eq in Ek by auto. destruct (found_pos k A c B S Ek) as (_ & H). exact H.
    + rewrite orb_false_r in P2. exact (first_above k A c B S P2).
Qed.

(** The part of the calls that removes k. *)
Definition kills {St} (o : mop K V St) (k : K) : bool := match o with MRemove k' => eqv lt k k' | MClear => true | _ => false end.
Definition keeps_shape {St} (o : mop K V St) : bool := match o with MInsert _ _ _ | MRemove _ | MClear => false | _ => true end.
Definition survives {St} (o : mop K V St) ps ps' : Prop :=
  (forall c, In c ps -> kills o (ck c) = false -> exists c', In c' ps' /\ ca c' = ca c /\ ck c' = ck c) /\ (keeps_shape o = true -> same_shape ps' ps).
Lemma survives_refl {St} (o : mop K V St) ps : survives o ps ps.
Proof. split; [intros c I _; exists c; auto|reflexivity]. Qed.
Lemma survives_shape {St} (o : mop K V St) ps ps' : same_shape ps' ps -> survives o ps ps'.
Proof.
  intros E. split; [|auto]. intros c I _. unfold same_shape in E. assert (I2 : In (ca c, ch c, ck c) (map (fun c => (ca c, ch c, ck c)) ps')) by (rewrite E; now apply (in_map (fun c => (ca c, ch c, ck c)))).
  apply in_map_iff in I2 as (c' & E2 & I2). injection E2 as E3 _ E4. exists c'. auto.
Qed.
Lemma ksorted_keys m m' : map fst m = map fst m' -> ksorted m -> ksorted m'.
Proof.
  revert m'. induction m as [|p m IH]; intros [|q m'] E S; cbn in E; try discriminate; [constructor|]. injection E as E1 E2. inversion S; subst. constructor; [now apply IH|].
  assert (F : Forall (fun x => lt (fst q) x = true) (map fst m)) by (apply Forall_map; rewrite <- E1; exact H2). rewrite E2 in F. now apply Forall_map in F.
Qed.
Lemma shape_keys X Y : same_shape X Y -> map fst (kvs X) = map fst (kvs Y).
Proof.
  unfold same_shape, kvs. rewrite !map_map. intros E. apply (f_equal (map snd)) in E. rewrite !map_map in E. exact E.
Qed.
Lemma put_shape a v ps : same_shape (put a v ps) ps.
Proof. unfold same_shape, put. rewrite map_map. apply map_ext. intros c. now destruct (Nat.eqb (ca c) a). Qed.

Lemma find_pos_on fr hd ps h l key : rep fr hd ps (h, l) -> allgood (kvs ps) -> good key = true -> ksorted (kvs ps) ->
  (exists A c B, ps = A ++ c :: B /\ below key (kvs A) /\ same key (kvs [c]) /\ above key (kvs B) /\ findNode impl key (h, l) = (Ok (Some (ca c)), (h, l))) \/
  (exists A B, ps = A ++ B /\ below key (kvs A) /\ above key (kvs B) /\ findNode impl key (h, l) = (Ok None, (h, l))).
Proof using SP SW Eq Gt.
  intros R G Gk S. destruct (sp_find _ _ _ SP fr hd ps h l key R) as [(c & I & Hc & E)|(A & B & -> & Pt & E)].
  - left. destruct (rep_in_split _ _ I) as (A & B & ->). exists A, c, B. rewrite Eq in Hc by (auto; exact (good_cell _ _ G (in_mid A c B))). destruct (found_pos key A c B S Hc) as (H1 & H2 & H3). auto 6.
  - right. exists A, B. destruct (parts_pos key A B G Gk S Pt). auto.
Qed.
Lemma lower_pos_on fr hd ps h l key : rep fr hd ps (h, l) -> allgood (kvs ps) -> good key = true -> ksorted (kvs ps) ->
  exists A M B, ps = A ++ M ++ B /\ below key (kvs A) /\ same key (kvs M) /\ above key (kvs B) /\ lowerBound impl key (h, l) = (Ok (firstp (M ++ B)), (h, l)).
Proof using SP SW Eq Gt.
  intros R G Gk S. destruct (sp_lower _ _ _ SP fr hd ps h l key R) as [(A & c & B & -> & Hc & E)|(A & B & -> & Pt & E)].
  - exists A, [c], B. rewrite Eq in Hc by (auto; exact (good_cell _ _ G (in_mid A c B))). destruct (found_pos key A c B S Hc) as (H1 & H2 & H3). repeat split; auto.
  - exists A, [], B. destruct (parts_pos key A B G Gk S Pt). repeat split; auto. constructor.
Qed.
Lemma upper_pos_on fr hd ps h l key : rep fr hd ps (h, l) -> allgood (kvs ps) -> good key = true -> ksorted (kvs ps) ->
  exists A M B, ps = A ++ M ++ B /\ below key (kvs A) /\ same key (kvs M) /\ above key (kvs B) /\ upperBound impl key (h, l) = (Ok (firstp B), (h, l)).
Proof using SP SW Eq Gt.
  intros R G Gk S. destruct (sp_upper _ _ _ SP fr hd ps h l key R) as [(A & c & B & -> & Hc & E)|(A & B & -> & Pt & E)].
  - exists A, [c], B. rewrite Eq in Hc by (auto; exact (good_cell _ _ G (in_mid A c B))). destruct (found_pos key A c B S Hc) as (H1 & H2 & H3). repeat split; auto.
  - exists A, [], B. destruct (parts_pos key A B G Gk S Pt). repeat split; auto. constructor.
Qed.

Lemma Insert_pos {St} fr hd ps h l key v r : rep fr hd ps (h, l) -> allgood (kvs ps) -> good key = true -> ksorted (kvs ps) -> exists ps' s',
  Insert impl key v r (h, l) = (Ok tt, s') /\ rep fr hd ps' s' /\ kvs ps' = insert lt key v (kvs ps) /\ ksorted (kvs ps') /\ survives (MInsert (St := St) key v r) ps ps'.
Proof using SP SW Eq Gt.
  intros R G Gk S. destruct (Insert_ok fr hd ps h l key v r R) as [(c & h' & l' & I & Hc & E & R')|(A & c & B & h' & l' & -> & Pt & Ek & Ev & _ & NI & E & R')].
  - destruct (rep_in_split _ _ I) as (A & B & ->). rewrite Eq in Hc by (auto; exact (good_cell _ _ G (in_mid A c B))). destruct (found_pos key A c B S Hc) as (H1 & H2 & H3).
    rewrite put_mid in R' by (eapply rep_nodup; eauto). exists (A ++ set_cv v c :: B), (h', l'). split; auto. split; auto.
    assert (Ekv : kvs (A ++ set_cv v c :: B) = insert lt key v (kvs (A ++ c :: B))).
    { unfold insert. change (c :: B) with ([c] ++ B). rewrite !kvs_app. rewrite (pos_has key _ _ _ H1 H2 H3). cbn [kvs map]. rewrite (pos_set key (kvs A) (kvs [c]) (kvs B) H1 H2 H3). reflexivity. }
    assert (Sh : same_shape (A ++ set_cv v c :: B) (A ++ c :: B)) by (unfold same_shape; rewrite !map_app; reflexivity).
    split; auto. split; [apply (ksorted_keys (kvs (A ++ c :: B))); auto; symmetry; now apply shape_keys|now apply survives_shape].
  - destruct (parts_pos key A B G Gk S Pt) as [H1 H3]. exists (A ++ c :: B), (h', l'). split; auto. split; auto. split; [|split].
    + rewrite !kvs_app. pose proof (pos_insert key (kvs A) [] (kvs B) H1 ltac:(constructor) H3 v eq_refl) as Hi. cbn [app] in Hi. rewrite Hi. cbn [kvs map]. now rewrite Ek, Ev.
    + rewrite kvs_app in *. apply SS_app_inv in S as (S1 & S2 & S3). apply SS_app; auto.
      * cbn [kvs map]. constructor; auto. rewrite Ek. cbn. exact H3.
      * rewrite Forall_forall in S3, H1 |- *. intros p Ip. constructor; [cbn; rewrite Ek; now apply H1|now apply S3].
    + split; [|discriminate]. intros d Id _. exists d. split; auto. apply in_app_iff in Id as [Id|Id]; apply in_app_iff; [now left|right; now right].
Qed.
Lemma Remove_pos {St} fr hd ps h l key : rep fr hd ps (h, l) -> allgood (kvs ps) -> good key = true -> ksorted (kvs ps) -> exists ps' s',
  Remove impl key (h, l) = (Ok (has lt key (kvs ps)), s') /\ rep fr hd ps' s' /\ kvs ps' = remove lt key (kvs ps) /\ ksorted (kvs ps') /\ survives (MRemove (St := St) key) ps ps' /\
  (forall a, nd (fst s') a = nd h a) /\ (forall A c B, ps = A ++ c :: B -> eqv lt (ck c) key = true -> ps' = A ++ B /\ nx (fst s') (ca c) 0 = Some (firstp B)).
Proof using SP SW Eq Gt.
  intros R G Gk S. destruct (Remove_ok fr hd ps h l key R) as (A & B & h' & l' & -> & Rp & Nd & H). destruct (remove_parts_pos key A B G Gk S Rp) as [H1 H2].
  assert (Keep : above key (kvs B) -> Remove impl key (h, l) = (Ok false, (h', l')) -> rep fr hd (A ++ B) (h', l') -> exists ps' s',
    Remove impl key (h, l) = (Ok (has lt key (kvs (A ++ B))), s') /\ rep fr hd ps' s' /\ kvs ps' = remove lt key (kvs (A ++ B)) /\ ksorted (kvs ps') /\ survives (MRemove (St := St) key) (A ++ B) ps' /\
    (forall a, nd (fst s') a = nd h a) /\ (forall A0 c B0, A ++ B = A0 ++ c :: B0 -> eqv lt (ck c) key = true -> ps' = A0 ++ B0 /\ nx (fst s') (ca c) 0 = Some (firstp B0))).
  { intros H3 E R'. exists (A ++ B), (h', l'). rewrite kvs_app in *. pose proof (pos_has key (kvs A) [] (kvs B) H1 ltac:(constructor) H3) as E1. pose proof (pos_remove key (kvs A) [] (kvs B) H1 ltac:(constructor) H3) as E2.
    cbn [app] in E1, E2. rewrite E1, E2. do 5 (split; [solve [auto using survives_refl]|]). split; [exact Nd|]. intros A0 c B0 Es Hc. exfalso. rewrite <- kvs_app, Es, kvs_app in E1. unfold has in E1. rewrite existsb_app in E1. cbn in E1. rewrite Hc in E1. rewrite orb_true_r in E1. discriminate. }
  destruct B as [|c B]; [destruct H; apply Keep; auto; constructor|]. destruct (eqk (ck c) key) eqn:Ek; [|destruct H; apply Keep; auto]. assert (Hc : eqv lt (ck c) key = true) by (rewrite <- Eq; auto; exact (good_cell _ _ G (in_mid A c B))).
  destruct H as (E & R' & Nx). destruct H2 as [H2 H3]. exists (A ++ B), (h', l'). change (c :: B) with ([c] ++ B). rewrite !kvs_app in *.
  rewrite (pos_has key _ _ _ H1 H2 H3), (pos_remove key _ _ _ H1 H2 H3). cbn [kvs map] in S. split; auto. split; auto. split; auto. split; [|split; [|split; [exact Nd|]]].
  - apply SS_app_inv in S as (S1 & S2 & S3). inversion S2; subst. apply SS_app; auto. eapply Forall_imp; [|exact S3]. intros p F. now inversion F.
  - split; [|discriminate]. intros d Id Kd. exists d. split; auto. apply in_app_iff in Id as [Id|[<-|Id]]; [apply in_app_iff; now left| |apply in_app_iff; now right].
    cbn in Kd. congruence.
  - intros A0 d B0 Es Hd. cbn [app] in Es.
    assert (Hn : forall X, In d X -> (below key (kvs X) \/ above key (kvs X)) -> False).
    { intros X I [F|F]; rewrite Forall_forall in F; specialize (F (ck d, cv d) (in_map (fun c => (ck c, cv c)) _ _ I)); cbn in F; apply eqv_true in Hd as [D1 D2]; congruence. }
    assert (Id : In d (A ++ c :: B)) by (rewrite Es; apply in_app_iff; right; now left). apply in_app_iff in Id as [Id|[Id|Id]]; [exfalso; eapply Hn; eauto| |exfalso; eapply Hn; eauto].
    subst d. pose proof (rep_nodup _ _ _ _ R) as ND.
    assert (EA : A = A0 /\ B = B0).
    { clear - ND Es. revert A0 Es ND. induction A as [|a A IH]; intros [|a0 A0] Es ND; cbn in *.
      - injection Es as <-. auto.
      - injection Es as <- ->. exfalso. apply NoDup_cons_iff in ND as [NI _]. apply NI. rewrite addrs_app. apply in_app_iff. right. now left.
      - injection Es as -> <-. exfalso. apply NoDup_cons_iff in ND as [NI _]. apply NI. rewrite addrs_app. apply in_app_iff. right. now left.
      - injection Es as <- Es. destruct (IH A0 Es) as [-> ->]; auto. now inversion ND. }
    destruct EA as [<- <-]. split; auto.
Qed.
Lemma split_two {T} (A1 B1 A2 B2 : list T) : A1 ++ B1 = A2 ++ B2 -> (exists D, A2 = A1 ++ D /\ B1 = D ++ B2) \/ (exists (d : T) D, A1 = A2 ++ d :: D /\ B2 = d :: D ++ B1).
Proof.
  revert A2. induction A1 as [|a A1 IH]; intros [|b A2] E; cbn in *.
  - left. exists []. auto.
  - left. exists (b :: A2). auto.
  - right. exists a, A1. auto.
  - injection E as <- E. destruct (IH A2 E) as [(D & -> & ->)|(d & D & -> & ->)]; [left; exists D; auto|right; exists d, D; auto].
Qed.

(** The keys a call compares with. *)
Definition good_op {St} (o : mop K V St) : bool :=
  match o with
  | MInsert k _ _ | MRemove k | MFind k | MHas k | MFindSet k _ | MLower k | MUpper k => good k
  | MRange a b => good a && good b
  | _ => true
  end.
Lemma step_cells {St} fr hd ps s (o : mop K V St) : rep fr hd ps s -> allgood (kvs ps) -> good_op o = true -> ksorted (kvs ps) -> exists ps',
  fst (map_step impl o s) = fst (map_spec lt o (kvs ps)) /\ kvs ps' = snd (map_spec lt o (kvs ps)) /\ rep fr hd ps' (snd (map_step impl o s)) /\ ksorted (kvs ps') /\ survives o ps ps'.
Proof using SP SW Eq Gt.
  intros R G Go S. destruct s as [h l]. destruct o; cbn [map_step map_spec]; cbn [good_op] in Go; unfold show.
  - destruct (Insert_pos (St := St) fr hd ps h l k v r R G Go S) as (ps' & s' & E & R' & Ek & S' & Sv). rewrite E. exists ps'. auto.
  - destruct (Remove_pos (St := St) fr hd ps h l k R G Go S) as (ps' & s' & E & R' & Ek & S' & Sv & _). rewrite E. exists ps'. auto.
  - destruct (Clear_ok fr hd ps h l R) as (s' & E & R'). rewrite E. exists []. split; auto. split; auto. split; auto. split; [constructor|]. split; [|discriminate]. intros c _ H. discriminate H.
  - exists ps. pose proof (r_len _ _ _ _ R) as Le. cbn in Le. cbn. rewrite Le. unfold zlen, kvs. rewrite map_length. auto using survives_refl.
  - exists ps. pose proof (r_len _ _ _ _ R) as Le. cbn in Le. cbn. rewrite Le. split; [|auto using survives_refl]. destruct ps; auto.
  - exists ps. unfold find_get, Find, bind. destruct (find_pos_on fr hd ps h l k R G Go S) as [(A & c & B & -> & H1 & H2 & H3 & E)|(A & B & -> & H1 & H3 & E)]; rewrite E; cbn [is_nil negb ret].
    + assert (I : In c (A ++ c :: B)) by (apply in_app_iff; right; now left). rewrite (ld_value_ok _ _ _ _ _ _ (rep_cell _ _ _ _ _ _ R I)). cbn [fst snd omap ret].
      split; [|auto using survives_refl]. change (c :: B) with ([c] ++ B). rewrite !kvs_app, (pos_lookup k _ _ _ H1 H2 H3). reflexivity.
    + cbn [fst snd omap]. split; [|auto using survives_refl]. rewrite !kvs_app. pose proof (pos_lookup k (kvs A) [] (kvs B) H1 ltac:(constructor) H3) as El. cbn [app] in El. now rewrite El.
  - exists ps. unfold Has, bind. destruct (find_pos_on fr hd ps h l k R G Go S) as [(A & c & B & -> & H1 & H2 & H3 & E)|(A & B & -> & H1 & H3 & E)]; rewrite E; cbn [is_nil negb ret fst snd omap];
      (split; [|auto using survives_refl]).
    + change (c :: B) with ([c] ++ B). rewrite !kvs_app, (pos_has k _ _ _ H1 H2 H3). reflexivity.
    + rewrite !kvs_app. pose proof (pos_has k (kvs A) [] (kvs B) H1 ltac:(constructor) H3) as El. cbn [app] in El. now rewrite El.
  - unfold find_set, Find, bind. destruct (find_pos_on fr hd ps h l k R G Go S) as [(A & c & B & -> & H1 & H2 & H3 & E)|(A & B & -> & H1 & H3 & E)]; rewrite E; cbn [is_nil negb ret].
    + assert (I : In c (A ++ c :: B)) by (apply in_app_iff; right; now left). rewrite (st_value_ok _ _ _ _ _ (rep_cell _ _ _ _ _ _ R I)). cbn [fst snd omap ret].
      exists (A ++ set_cv v c :: B). split; [change (c :: B) with ([c] ++ B); rewrite !kvs_app, (pos_has k _ _ _ H1 H2 H3); reflexivity|].
      split; [change (c :: B) with ([c] ++ B); rewrite !kvs_app, (pos_set k _ _ _ H1 H2 H3); reflexivity|]. split; [now apply set_mid|].
      assert (Sh : same_shape (A ++ set_cv v c :: B) (A ++ c :: B)) by (unfold same_shape; rewrite !map_app; reflexivity).
      split; [apply (ksorted_keys (kvs (A ++ c :: B))); auto; symmetry; now apply shape_keys|now apply survives_shape].
    + cbn [fst snd omap]. exists (A ++ B). rewrite !kvs_app in *. pose proof (pos_has k (kvs A) [] (kvs B) H1 ltac:(constructor) H3) as El. pose proof (pos_set k (kvs A) [] (kvs B) H1 ltac:(constructor) H3 v) as Es. cbn [app map] in El, Es.
      rewrite El, Es. auto using survives_refl.
  - exists ps. destruct (lower_pos_on fr hd ps h l k R G Go S) as (A & M & B & -> & H1 & H2 & H3 & E).
    rewrite (walk_all fr hd A (M ++ B)); auto; [|unfold LowerBound; rewrite (bind_eq _ _ _ _ _ E); reflexivity]. cbn [fst snd omap].
    split; [|auto using survives_refl]. rewrite !kvs_app, (pos_lower k _ _ _ H1 H2 H3). reflexivity.
  - exists ps. destruct (upper_pos_on fr hd ps h l k R G Go S) as (A & M & B & -> & H1 & H2 & H3 & E).
    rewrite (walk_all fr hd (A ++ M) B); auto; [|now rewrite <- app_assoc|unfold UpperBound; rewrite (bind_eq _ _ _ _ _ E); reflexivity]. cbn [fst snd omap].
    split; [|auto using survives_refl]. rewrite !kvs_app, (pos_upper k _ _ _ H1 H2 H3). reflexivity.
  - apply andb_true_iff in Go as [Go1 Go2]. exists ps. destruct (lower_pos_on fr hd ps h l first R G Go1 S) as (A1 & M1 & B1 & E1 & H1 & H2 & H3 & El). destruct (upper_pos_on fr hd ps h l last R G Go2 S) as (A2 & M2 & B2 & E2 & G1 & G2 & G3 & Eu).
    assert (Ew : walk (FindRange impl first last) (h, l) = iter_loop (Datatypes.S (length h)) (firstp (M1 ++ B1), firstp B2) [] (h, l)).
    { unfold walk. rewrite bind_fuel. unfold FindRange. erewrite bind_eq; [|rewrite (bind_eq _ _ _ _ _ El), (bind_eq _ _ _ _ _ Eu); reflexivity]. reflexivity. }
    rewrite Ew. assert (Es : A1 ++ M1 ++ B1 = (A2 ++ M2) ++ B2) by (rewrite <- app_assoc; congruence). pose proof (rep_fuel _ _ _ _ _ R) as Lf.
    assert (NotB1 : Forall (fun p => lt (fst p) first = false) (kvs (M1 ++ B1))).
    { rewrite kvs_app. apply Forall_app. split; [eapply Forall_imp; [|exact H2]; intros p H; now apply eqv_true in H as [H _]|eapply Forall_imp; [|exact H3]; intros p H; now apply lt_asym]. }
    assert (NotA2 : Forall (fun p => lt last (fst p) = false) (kvs (A2 ++ M2))).
    { rewrite kvs_app. apply Forall_app. split; [eapply Forall_imp; [|exact G1]; intros p H; now apply lt_asym|eapply Forall_imp; [|exact G2]; intros p H; now apply eqv_true in H as [_ H]]. }
    destruct (split_two _ _ _ _ Es) as [(D & EA & EB)|(d & D & EA & EB)].
    + rewrite EB. rewrite (iter_loop_ok fr hd D B2 h l A1).
      * cbn [fst snd omap app]. split; [|auto using survives_refl].
        assert (Eps : kvs ps = kvs A1 ++ kvs D ++ kvs B2) by (rewrite E1, EB, !kvs_app; reflexivity). rewrite Eps. rewrite EA, kvs_app in NotA2. apply Forall_app in NotA2 as [N1 N2]. rewrite EB, kvs_app in NotB1. apply Forall_app in NotB1 as [N3 N4].
        rewrite !existsb_app, (existsb_none _ (kvs A1)), (existsb_none _ (kvs D)), (existsb_none _ (kvs B2)).
        -- cbn [orb]. rewrite !filter_app, (filter_none _ (kvs A1)), (filter_all _ (kvs D)), (filter_none _ (kvs B2)), app_nil_r; auto.
           ++ eapply Forall_imp; [|exact G3]. intros p H. cbn. rewrite H. apply andb_false_r.
           ++ rewrite Forall_forall in *. intros p I. now rewrite N3, N2.
           ++ eapply Forall_imp; [|exact H1]. intros p H. cbn. now rewrite H.
        -- eapply Forall_imp; [|exact N4]. intros p H. cbn. rewrite H. apply andb_false_r.
        -- eapply Forall_imp; [|exact N3]. intros p H. cbn. rewrite H. apply andb_false_r.
        -- eapply Forall_imp; [|exact N1]. intros p H. cbn. now rewrite H.
      * rewrite <- EB, <- E1. exact R.
      * rewrite E1, EB, !app_length in Lf. lia.
    + rewrite EB. cbn [firstp]. rewrite (iter_loop_panic fr hd (M1 ++ B1) (ca d) h l A1).
      * cbn [fst snd omap]. split; [|auto using survives_refl].
        assert (Eps : kvs ps = kvs (A2 ++ M2) ++ (ck d, cv d) :: kvs D ++ kvs (M1 ++ B1)) by (rewrite E1, EA, <- app_assoc, !kvs_app; cbn [kvs map app]; rewrite ?map_app; reflexivity).
        rewrite Eps, existsb_app. cbn [existsb fst]. assert (lt last (ck d) = true) as ->.
        { rewrite EB in G3. cbn [kvs map] in G3. inversion G3; subst. assumption. }
        assert (lt (ck d) first = true) as ->. { rewrite EA, kvs_app in H1. apply Forall_app in H1 as [_ H1]. cbn [kvs map] in H1. inversion H1; subst. assumption. }
        cbn. now rewrite orb_true_r.
      * rewrite <- E1. exact R.
      * intros I. rewrite E1, EA in R. pose proof (rep_nodup _ _ _ _ R) as ND. rewrite <- app_assoc in ND. rewrite addrs_app in ND. apply NoDup_app_r in ND. cbn in ND. apply NoDup_cons_iff in ND as [NI _]. apply NI. rewrite addrs_app. apply in_app_iff. now right.
      * rewrite E1, app_length in Lf. lia.
  - exists ps. rewrite (walk_all fr hd [] ps); auto; [cbn [fst snd omap]; auto using survives_refl|]. unfold Iterate. rewrite bind_hget. pose proof (r_head _ _ _ _ R) as Hh. cbn in Hh. rewrite Hh.
    rewrite (bind_eq _ _ _ _ _ (ld_next_ok _ _ _ _ _ (chain_first _ _ _ _ (rep_chain0 _ _ _ _ _ R)))). reflexivity.
  - exists ps. rewrite (ForEach_ok cb fr hd ps h l st R). cbn [fst snd omap]. auto using survives_refl.
  - exists ps. rewrite (ForEachIf_ok cb fr hd ps h l st R). cbn [fst snd omap]. auto using survives_refl.
  - destruct (ForEachMutable_ok cb fr hd ps h l st R) as (s' & E & R'). rewrite E. destruct (mut_kvs cb ps st) as [Ek Sh]. rewrite Ek. cbn [fst snd omap]. eexists. split; [reflexivity|]. split; [reflexivity|]. split; [exact R'|].
    split; [apply (ksorted_keys (kvs ps)); auto; symmetry; now apply shape_keys|now apply survives_shape].
  - destruct (ForEachMutableIf_ok cb fr hd ps h l st R) as (s' & E & R'). rewrite E. destruct (mutif_kvs cb ps st) as [Ek Sh]. rewrite Ek. cbn [fst snd omap]. eexists. split; [reflexivity|]. split; [reflexivity|]. split; [exact R'|].
    split; [apply (ksorted_keys (kvs ps)); auto; symmetry; now apply shape_keys|now apply survives_shape].
Qed.

(** *** Runs *)
Lemma good_keys m m' : map fst m = map fst m' -> allgood m -> allgood m'.
Proof. intros E G. apply (Forall_map fst (fun k => good k = true)). rewrite <- E. now apply Forall_map. Qed.
Lemma good_filter f m : allgood m -> allgood (filter f m).
Proof. rewrite !Forall_forall. intros G p I. apply filter_In in I as [I _]. auto. Qed.
Lemma spec_good {St} (o : mop K V St) m : allgood m -> good_op o = true -> allgood (snd (map_spec lt o m)).
Proof.
  intros G Go. assert (Sv : forall k v, allgood (set_value lt k v m)) by (intros k v; apply (good_keys m); auto; unfold set_value; rewrite map_map; apply map_ext; intros p; now destruct (eqv lt (fst p) k)).
  destruct o; cbn [map_spec snd]; auto.
  - unfold insert. destruct (has lt k m); auto. apply Forall_app. split; [now apply good_filter|]. constructor; [exact Go|now apply good_filter].
  - now apply good_filter.
  - assert (E : forall st, map fst (fst (map_st (fun st p => let '(v, st') := cb st p in ((fst p, v), st')) st m)) = map fst m).
    { clear. induction m as [|p m IH]; intros st; cbn; auto. destruct (cb st p) as [v st']. specialize (IH st'). destruct (map_st _ st' m). cbn in *. now rewrite IH. }
    specialize (E st). destruct (map_st _ st m) as [m' st']. cbn in *. now apply (good_keys m).
  - assert (E : forall st, map fst (fst (map_while (fun st p => let '(v, go, st') := cb st p in ((fst p, v), go, st')) st m)) = map fst m).
    { clear. induction m as [|p m IH]; intros st; cbn; auto. destruct (cb st p) as [[v go] st']. destruct go; [|reflexivity]. specialize (IH st'). destruct (map_while _ st' m). cbn in *. now rewrite IH. }
    specialize (E st). destruct (map_while _ st m) as [m' st']. cbn in *. now apply (good_keys m).
Qed.
Definition Rel (fr : nat -> option (slnode K V)) (m : list (K * V)) (s : heap * sklist) : Prop := exists hd ps, kvs ps = m /\ rep fr hd ps s /\ ksorted m.
Lemma run_ok_on {St} fr (ops : list (mop K V St)) : forall m s, Rel fr m s -> allgood m -> forallb good_op ops = true ->
  fst (run (map_step impl) ops s) = fst (run (map_spec lt) ops m) /\ Rel fr (snd (run (map_spec lt) ops m)) (snd (run (map_step impl) ops s)) /\ allgood (snd (run (map_spec lt) ops m)).
Proof using SP SW Eq Gt.
  induction ops as [|o ops IH]; intros m s R G F; [auto|]. cbn [forallb] in F. apply andb_true_iff in F as [Go F]. destruct R as (hd & ps & <- & R & S).
  destruct (step_cells fr hd ps s o R G Go S) as (ps' & E & Ek & R' & S' & _). pose proof (spec_good o (kvs ps) G Go) as G'. cbn [run].
  destruct (map_step impl o s) as [r1 s1]. destruct (map_spec lt o (kvs ps)) as [r2 m1]. cbn [fst snd] in *. subst r2 m1.
  destruct (IH (kvs ps') s1) as (E2 & R2 & G2); auto; [exists hd, ps'; auto|]. destruct (run (map_step impl) ops s1). destruct (run (map_spec lt) ops (kvs ps')). cbn [fst snd] in *. now subst.
Qed.
Lemma run_survives_on {St} fr (ops : list (mop K V St)) : forall hd ps s c, rep fr hd ps s -> allgood (kvs ps) -> forallb good_op ops = true -> ksorted (kvs ps) -> In c ps -> forallb (fun o => negb (kills o (ck c))) ops = true ->
  exists ps' c', kvs ps' = snd (run (map_spec lt) ops (kvs ps)) /\ rep fr hd ps' (snd (run (map_step impl) ops s)) /\ ksorted (kvs ps') /\ In c' ps' /\ ca c' = ca c /\ ck c' = ck c.
Proof using SP SW Eq Gt.
  induction ops as [|o ops IH]; intros hd ps s c R G Fg S I F; cbn [run].
  - exists ps, c. auto 8.
  - cbn in F, Fg. apply andb_true_iff in F as [F1 F2]. apply andb_true_iff in Fg as [Go Fg]. apply negb_true_iff in F1. destruct (step_cells fr hd ps s o R G Go S) as (ps1 & E1 & Ek & R1 & S1 & Sv).
    pose proof (spec_good o (kvs ps) G Go) as G'.
    destruct (proj1 Sv c I F1) as (c1 & I1 & Ea & Ekk). destruct (map_step impl o s) as [r1 s1]. destruct (map_spec lt o (kvs ps)) as [r2 m1]. cbn [fst snd] in *. subst m1.
    rewrite <- Ekk in F2. destruct (IH hd ps1 s1 c1 R1 G' Fg S1 I1 F2) as (ps2 & c2 & K2 & R2 & S2 & I2 & Ea2 & Ek2). exists ps2, c2.
    destruct (run (map_spec lt) ops (kvs ps1)). destruct (run (map_step impl) ops s1). cbn [fst snd] in *. do 4 (split; [assumption|]). split; congruence.
Qed.
Lemma erase_loop_ok pred fr hd B : forall A h l fuel, rep fr hd (A ++ B) (h, l) -> allgood (kvs (A ++ B)) -> ksorted (kvs (A ++ B)) -> (length B < fuel)%nat ->
  exists s', erase_loop impl pred fuel (firstp B, None) (h, l) = (Ok tt, s') /\ rep fr hd (A ++ filter (fun c => negb (pred (ck c, cv c))) B) s'.
Proof using SP SW Eq Gt.
  induction B as [|c B IH]; intros A h l fuel R G S L; (destruct fuel as [|fuel]; [cbn in L; lia|]); cbn [erase_loop].
  - unfold IsNotEnd. cbn. eexists. split; [reflexivity|exact R].
  - unfold IsNotEnd. cbn [fst snd firstp peqb negb]. unfold Key, Value, MoveToNext. cbn [fst snd].
    assert (I : In c (A ++ c :: B)) by (apply in_app_iff; right; now left). pose proof (rep_cell _ _ _ _ _ _ R I) as Nc.
    rewrite (bind_eq _ _ _ _ _ (ld_key_ok _ _ _ _ _ _ Nc)), (bind_eq _ _ _ _ _ (ld_value_ok _ _ _ _ _ _ Nc)). cbn [filter]. destruct (pred (ck c, cv c)); cbn [negb].
    + destruct (Remove_pos (St := unit) fr hd (A ++ c :: B) h l (ck c) R G (good_cell _ _ G I) S) as (ps' & [h1 l1] & E & R' & Ek & S' & _ & Nd & P).
      destruct (P A c B eq_refl) as [-> Nx]; [apply eqv_true; split; apply (sw_irrefl _ SW)|]. cbn [fst] in Nd, Nx.
      erewrite bind_eq; [|rewrite (bind_eq _ _ _ _ _ E); reflexivity]. erewrite bind_eq; [|rewrite (bind_eq _ _ _ _ _ (ld_next_ok _ _ _ _ _ Nx)); reflexivity].
      apply IH; auto; [|cbn in L; lia]. rewrite kvs_app in *. apply Forall_app in G as [G1 G2]. inversion G2; subst. apply Forall_app. auto.
    + rewrite bind_ret. erewrite bind_eq; [|rewrite (bind_eq _ _ _ _ _ (ld_next_ok _ _ _ _ _ (rep_next _ _ A c B _ _ R))); reflexivity].
      destruct (IH (A ++ [c]) h l fuel) as (s' & E & R'); [rewrite <- app_assoc; exact R|rewrite <- app_assoc; exact G|rewrite <- app_assoc; exact S|cbn in L; lia|]. exists s'. split; auto. rewrite <- app_assoc in R'. exact R'.
Qed.
Lemma erase_if_ok_on pred fr m s : Rel fr m s -> allgood m -> exists s', erase_if impl pred s = (Ok tt, s') /\ Rel fr (filter (fun p => negb (pred p)) m) s'.
Proof using SP SW Eq Gt.
  intros (hd & ps & <- & R & S) G. destruct s as [h l]. unfold erase_if, Iterate. rewrite bind_fuel. pose proof (r_head _ _ _ _ R) as Hh. cbn in Hh.
  erewrite bind_eq; [|rewrite bind_hget, Hh, (bind_eq _ _ _ _ _ (ld_next_ok _ _ _ _ _ (chain_first _ _ _ _ (rep_chain0 _ _ _ _ _ R)))); reflexivity].
  destruct (erase_loop_ok pred fr hd ps [] h l (Datatypes.S (length h)) R G S (rep_fuel _ _ _ _ _ R)) as (s' & E & R'). exists s'. split; auto. exists hd, (filter (fun c => negb (pred (ck c, cv c))) ps). split; [|split; auto].
  - unfold kvs. clear. induction ps as [|c ps IH]; cbn; auto. destruct (pred (ck c, cv c)); cbn; now rewrite IH.
  - clear - S. unfold ksorted in *. induction S; cbn; [constructor|]. destruct (negb (pred a)); auto. constructor; auto. rewrite Forall_forall in *. intros x I. apply filter_In in I as [I _]. auto.
Qed.
Lemma init_Rel zk zv h0 l0 : exists s', init zk zv (h0, l0) = (Ok tt, s') /\ Rel (nth_error h0) [] s'.
Proof. destruct (init_ok zk zv h0 l0) as (s' & E & R). exists s'. split; auto. exists (length h0), []. split; [reflexivity|]. split; [exact R|]. constructor. Qed.
End Order.

(** The same when the comparisons agree with the order on all keys. *)
Section Total.
Variable lt : K -> K -> bool.
Hypothesis SW : strict_weak lt.
Hypothesis Eq : forall a b : K, eqk a b = eqv lt a b.
Hypothesis Gt : forall a b : K, gtk a b = lt b a.
Notation below k m := (Forall (fun p : K * V => lt (fst p) k = true) m).
Notation same k m := (Forall (fun p : K * V => eqv lt (fst p) k = true) m).
Notation above k m := (Forall (fun p : K * V => lt k (fst p) = true) m).
Let any := fun _ : K => true.
Let Eq' : forall a b : K, any a = true -> any b = true -> eqk a b = eqv lt a b.
Proof using Eq. auto. Qed.
Let Gt' : forall a b : K, any a = true -> any b = true -> gtk a b = lt b a.
Proof using Gt. auto. Qed.
Let any_ok (m : list (K * V)) : Forall (fun p => any (fst p) = true) m.
Proof. apply Forall_forall. auto. Qed.
Let any_ops {St} (ops : list (mop K V St)) : forallb (good_op any) ops = true.
Proof. apply forallb_forall. intros o _. now destruct o. Qed.
Lemma find_pos fr hd ps h l key : rep fr hd ps (h, l) -> ksorted lt (kvs ps) ->
  (exists A c B, ps = A ++ c :: B /\ below key (kvs A) /\ same key (kvs [c]) /\ above key (kvs B) /\ findNode impl key (h, l) = (Ok (Some (ca c)), (h, l))) \/
  (exists A B, ps = A ++ B /\ below key (kvs A) /\ above key (kvs B) /\ findNode impl key (h, l) = (Ok None, (h, l))).
Proof using SP SW Eq Gt any. intros R S. exact (find_pos_on lt SW any Eq' Gt' fr hd ps h l key R (any_ok _) eq_refl S). Qed.
Lemma lower_pos fr hd ps h l key : rep fr hd ps (h, l) -> ksorted lt (kvs ps) ->
  exists A M B, ps = A ++ M ++ B /\ below key (kvs A) /\ same key (kvs M) /\ above key (kvs B) /\ lowerBound impl key (h, l) = (Ok (firstp (M ++ B)), (h, l)).
Proof using SP SW Eq Gt any. intros R S. exact (lower_pos_on lt SW any Eq' Gt' fr hd ps h l key R (any_ok _) eq_refl S). Qed.
Lemma upper_pos fr hd ps h l key : rep fr hd ps (h, l) -> ksorted lt (kvs ps) ->
  exists A M B, ps = A ++ M ++ B /\ below key (kvs A) /\ same key (kvs M) /\ above key (kvs B) /\ upperBound impl key (h, l) = (Ok (firstp B), (h, l)).
Proof using SP SW Eq Gt any. intros R S. exact (upper_pos_on lt SW any Eq' Gt' fr hd ps h l key R (any_ok _) eq_refl S). Qed.
Lemma run_ok {St} fr (ops : list (mop K V St)) m s : Rel lt fr m s ->
  fst (run (map_step impl) ops s) = fst (run (map_spec lt) ops m) /\ Rel lt fr (snd (run (map_spec lt) ops m)) (snd (run (map_step impl) ops s)).
Proof using SP SW Eq Gt any. intros R. destruct (run_ok_on lt SW any Eq' Gt' fr ops m s R (any_ok _) (any_ops ops)) as (H1 & H2 & _). auto. Qed.
Lemma run_survives {St} fr (ops : list (mop K V St)) hd ps s c : rep fr hd ps s -> ksorted lt (kvs ps) -> In c ps -> forallb (fun o => negb (kills lt o (ck c))) ops = true ->
  exists ps' c', kvs ps' = snd (run (map_spec lt) ops (kvs ps)) /\ rep fr hd ps' (snd (run (map_step impl) ops s)) /\ ksorted lt (kvs ps') /\ In c' ps' /\ ca c' = ca c /\ ck c' = ck c.
Proof using SP SW Eq Gt any. intros R S I F. exact (run_survives_on lt SW any Eq' Gt' fr ops hd ps s c R (any_ok _) (any_ops ops) S I F). Qed.
Lemma erase_if_ok pred fr m s : Rel lt fr m s -> exists s', erase_if impl pred s = (Ok tt, s') /\ Rel lt fr (filter (fun p => negb (pred p)) m) s'.
Proof using SP SW Eq Gt any. intros R. exact (erase_if_ok_on lt SW any Eq' Gt' pred fr m s R (any_ok _)). Qed.
End Total.
End Methods.
End SL.
