(** Invariants of programs that copy SkipList structs. *)
From Verif Require Import Base BaseLemmas Spec Trace Nodes Spec_List Spec_Map Model_SkipList Proof_SkipList Proof_Map Spec_SkipListCopy Model_SkipListCopy.

Section Weak.
Context {K V : Type}.
Notation heap := (list (slnode K V)).
Notation SP := (P (slnode K V) sklist).
Implicit Types (h : heap) (l : sklist) (ps : list (@cell K V)).

(** *** Programs that do not look at the struct *)
Definition hl {A} (p : SP A) : Prop := forall h, exists r h', forall l, p (h, l) = (r, (h', l)).
Lemma hl_ret {A} (v : A) : hl (ret v).
Proof. intros h. exists (Ok v), h. reflexivity. Qed.
Lemma hl_panic {A} : hl (@panic _ A).
Proof. intros h. exists Panic, h. reflexivity. Qed.
Lemma hl_nofuel {A} : hl (@nofuel _ A).
Proof. intros h. exists NoFuel, h. reflexivity. Qed.
Lemma hl_bind {A B} (p : SP A) (k : A -> SP B) : hl p -> (forall a, hl (k a)) -> hl (bind p k).
Proof.
  intros Hp Hk h. destruct (Hp h) as (r & h1 & E). destruct r as [a| |].
  - destruct (Hk a h1) as (r & h2 & E2). exists r, h2. intros l. unfold bind. rewrite E. apply E2.
  - exists Panic, h1. intros l. unfold bind. now rewrite E.
  - exists NoFuel, h1. intros l. unfold bind. now rewrite E.
Qed.
Lemma hl_pload p : hl (pload (N := slnode K V) (H := sklist) p).
Proof. intros h. unfold pload. destruct p as [a|]; [destruct (nth_error h a) eqn:E|]; eexists _, h; intros l; cbn; rewrite ?E; reflexivity. Qed.
Lemma hl_pmod p f : hl (pmod (N := slnode K V) (H := sklist) p f).
Proof. intros h. unfold pmod. destruct p as [a|]; [destruct (nth_error h a) eqn:E|]; eexists _, _; intros l; cbn; rewrite ?E; reflexivity. Qed.
Lemma hl_key p : hl (ld_key (K := K) (V := V) p).
Proof. apply hl_bind; [apply hl_pload|intros; apply hl_ret]. Qed.
Lemma hl_value p : hl (ld_value (K := K) (V := V) p).
Proof. apply hl_bind; [apply hl_pload|intros; apply hl_ret]. Qed.
Lemma hl_next p i : hl (ld_next (K := K) (V := V) p i).
Proof. apply hl_bind; [apply hl_pload|intros n]. destruct (nth_error (n_next n) i); [apply hl_ret|apply hl_panic]. Qed.
Lemma hl_st_value p v : hl (st_value (K := K) (V := V) p v).
Proof. apply hl_pmod. Qed.
Lemma hl_st_next p i q : hl (st_next (K := K) (V := V) p i q).
Proof. apply hl_bind; [apply hl_pload|intros n]. destruct (Nat.ltb i (length (n_next n))); [apply hl_pmod|apply hl_panic]. Qed.
Lemma hl_fuel : hl (heap_fuel (N := slnode K V) (H := sklist)).
Proof. intros h. exists (Ok (S (length h))), h. reflexivity. Qed.
Lemma hl_scan (hit stop : K -> bool) : forall fuel i prev cur, hl (scan (V := V) hit stop fuel i prev cur).
Proof.
  induction fuel as [|fuel IH]; intros i prev cur; cbn [scan]; [apply hl_nofuel|]. destruct (is_nil cur); [apply hl_ret|].
  apply hl_bind; [apply hl_key|intros k]. destruct (hit k); [apply hl_ret|]. destruct (stop k); [apply hl_ret|]. apply hl_bind; [apply hl_next|auto].
Qed.
Lemma hl_descend (hit stop : K -> bool) fuel : forall lvl prev, hl (descend (V := V) hit stop fuel lvl prev).
Proof.
  induction lvl as [|i IH]; intros prev; cbn [descend]; [apply hl_ret|]. apply hl_bind; [apply hl_next|intros cur].
  apply hl_bind; [apply hl_scan|intros [n|p]]; [apply hl_ret|apply IH].
Qed.
Lemma hl_iter_loop : forall fuel it seen, hl (iter_loop (K := K) (V := V) fuel it seen).
Proof.
  induction fuel as [|fuel IH]; intros it seen; cbn [iter_loop]; [apply hl_nofuel|]. destruct (IsNotEnd it); [|apply hl_ret].
  apply hl_bind; [apply hl_key|intros k]. apply hl_bind; [apply hl_value|intros v]. apply hl_bind; [|intros it'; apply IH].
  apply hl_bind; [apply hl_next|intros; apply hl_ret].
Qed.
Section Callbacks.
Context {St : Type}.
Lemma hl_ForEach (cb : St -> K * V -> St) : forall fuel e st, hl (ForEach_loop cb fuel e st).
Proof.
  induction fuel as [|fuel IH]; intros e st; cbn [ForEach_loop]; [apply hl_nofuel|]. destruct (is_nil e); [apply hl_ret|].
  apply hl_bind; [apply hl_key|intros k]. apply hl_bind; [apply hl_value|intros v]. apply hl_bind; [apply hl_next|intros; apply IH].
Qed.
Lemma hl_ForEachIf (cb : St -> K * V -> bool * St) : forall fuel e st, hl (ForEachIf_loop cb fuel e st).
Proof.
  induction fuel as [|fuel IH]; intros e st; cbn [ForEachIf_loop]; [apply hl_nofuel|]. destruct (is_nil e); [apply hl_ret|].
  apply hl_bind; [apply hl_key|intros k]. apply hl_bind; [apply hl_value|intros v]. destruct (cb st (k, v)) as [go st']. destruct (negb go); [apply hl_ret|].
  apply hl_bind; [apply hl_next|intros; apply IH].
Qed.
Lemma hl_ForEachMutable (cb : St -> K * V -> V * St) : forall fuel e st, hl (ForEachMutable_loop cb fuel e st).
Proof.
  induction fuel as [|fuel IH]; intros e st; cbn [ForEachMutable_loop]; [apply hl_nofuel|]. destruct (is_nil e); [apply hl_ret|].
  apply hl_bind; [apply hl_key|intros k]. apply hl_bind; [apply hl_value|intros v]. destruct (cb st (k, v)) as [v' st'].
  apply hl_bind; [apply hl_st_value|intros _]. apply hl_bind; [apply hl_next|intros; apply IH].
Qed.
Lemma hl_ForEachMutableIf (cb : St -> K * V -> V * bool * St) : forall fuel e st, hl (ForEachMutableIf_loop cb fuel e st).
Proof.
  induction fuel as [|fuel IH]; intros e st; cbn [ForEachMutableIf_loop]; [apply hl_nofuel|]. destruct (is_nil e); [apply hl_ret|].
  apply hl_bind; [apply hl_key|intros k]. apply hl_bind; [apply hl_value|intros v]. destruct (cb st (k, v)) as [[v' go] st'].
  apply hl_bind; [apply hl_st_value|intros _]. destruct (negb go); [apply hl_ret|]. apply hl_bind; [apply hl_next|intros; apply IH].
Qed.
End Callbacks.

(** *** The nodes of a list, and structs for it *)
Record body (fr : nat -> option (slnode K V)) (hd : nat) ps h : Prop := mkB {
  b_keeps : keeps fr h;
  b_hd : exists k v, nd h hd = Some (k, v, skipListMaxLevel);
  b_cells : Forall (cellok h) ps;
  b_chain : forall i, (i < skipListMaxLevel)%nat -> chain h i hd (tall i ps);
  b_nodup : NoDup (hd :: addrs ps);
  b_above : forall a, In a (hd :: addrs ps) -> fr a = None;
  b_height : forall c, In c ps -> (1 <= ch c)%nat }.
(** A struct made by New or copied from one. *)
Record loose (hd : nat) l : Prop := mkLoose {
  o_level : (1 <= sl_level l <= skipListMaxLevel)%nat;
  o_prevs : length (sl_prevs l) = skipListMaxLevel;
  o_head : sl_head l = Some hd }.
(** Its level may be too high, its length is any number. *)
Definition fits (hd : nat) ps l : Prop := loose hd l /\ forall c, In c ps -> (ch c <= sl_level l)%nat.
Lemma rep_body fr hd ps h l : rep fr hd ps (h, l) -> body fr hd ps h /\ fits hd ps l.
Proof. intros []. cbn in *. split; [|split]; [constructor; auto|constructor; auto|]; intros c I; apply r_height; auto. Qed.
Definition top ps : nat := fold_right Nat.max 1%nat (map ch ps).
Lemma top_ge ps : (1 <= top ps)%nat /\ forall c, In c ps -> (ch c <= top ps)%nat.
Proof.
  induction ps as [|c ps [IH1 IH2]]; cbn [top map fold_right]; [split; [cbn; lia|intros c []]|]. unfold top in *. cbn [map fold_right]. split; [lia|]. intros d [<-|I]; [lia|]. specialize (IH2 d I). lia.
Qed.
Lemma top_exact ps : top ps = 1%nat \/ exists c, In c ps /\ ch c = top ps.
Proof.
  induction ps as [|c ps IH]; [now left|]. unfold top in *. cbn [map fold_right]. destruct (Nat.max_spec (ch c) (fold_right Nat.max 1%nat (map ch ps))) as [[L ->]|[L ->]].
  - destruct IH as [E|(d & I & E)]; [now left|]. right. exists d. split; [now right|auto].
  - right. exists c. split; [now left|auto].
Qed.
Lemma top_le ps n : (1 <= n)%nat -> (forall c, In c ps -> (ch c <= n)%nat) -> (top ps <= n)%nat.
Proof. intros L H. destruct (top_exact ps) as [->|(c & I & <-)]; auto. Qed.
Lemma top_fits hd ps l : fits hd ps l -> (top ps <= sl_level l)%nat.
Proof. intros [[L _ _] H]. apply top_le; [lia|auto]. Qed.
(** The struct the list would have on its own. *)
Definition ideal hd ps : sklist := mkSL (top ps) (zlen ps) (Some hd) (repeat None skipListMaxLevel).
Lemma to_ideal fr hd ps h l : body fr hd ps h -> fits hd ps l -> rep fr hd ps (h, ideal hd ps).
Proof.
  intros [] F. destruct (top_ge ps) as [T1 T2]. pose proof (top_fits _ _ _ F) as T3. destruct F as [[L P Hh] F]. constructor; cbn; auto; try lia.
  - apply top_exact.
Qed.
Lemma body_fuel fr hd ps h : body fr hd ps h -> (length ps < S (length h))%nat.
Proof.
  intros B. rewrite <- (map_length ca ps). apply Proof_Nodes.nodup_fuel; [pose proof (b_nodup _ _ _ _ B) as ND; now inversion ND|].
  intros a I. apply in_map_iff in I as (c & <- & I). pose proof (b_cells _ _ _ _ B) as F. rewrite Forall_forall in F. eapply nd_lt. exact (F c I).
Qed.
Lemma body_chain0 fr hd ps h : body fr hd ps h -> chain h 0 hd ps.
Proof. intros B. rewrite <- (tall0 ps) by (intros c I; apply (b_height _ _ _ _ B c I)). apply (b_chain _ _ _ _ B). pose proof (randomLevel_range 0 0). lia. Qed.
Lemma body_cell fr hd ps h c : body fr hd ps h -> In c ps -> nd h (ca c) = Some (ck c, cv c, ch c).
Proof. intros R I. pose proof (b_cells _ _ _ _ R) as F. rewrite Forall_forall in F. exact (F c I). Qed.
Lemma body_last fr hd A B h : body fr hd (A ++ B) h -> nx h (lasta hd A) 0 = Some (firstp B).
Proof. intros R. apply body_chain0 in R. apply chain_app in R as [_ R]. now apply chain_first. Qed.
Lemma body_empty fr hd ps h j : body fr hd ps h -> (top ps <= j < skipListMaxLevel)%nat -> nx h hd j = Some None.
Proof.
  intros W L. pose proof (b_chain _ _ _ _ W j ltac:(lia)) as C. rewrite (tall_none j ps) in C; [now apply chain_first in C|]. intros c I. destruct (top_ge ps) as [_ T]. specialize (T c I). lia.
Qed.

(** *** Searching from a level that is too high *)
Lemma descend_drop (hit stop : K -> bool) fuel n h l hd : forall d, (forall j, (n <= j < n + d)%nat -> nx h hd j = Some None) ->
  descend hit stop (S fuel) (n + d) (Some hd) (h, l) = descend hit stop (S fuel) n (Some hd) (h, l).
Proof.
  induction d as [|d IH]; intros H; [now rewrite Nat.add_0_r|]. rewrite Nat.add_succ_r. cbn [descend].
  rewrite (bind_eq _ _ _ _ _ (ld_next_ok h l hd (n + d) None ltac:(apply H; lia))). cbn [scan is_nil]. rewrite bind_ret. apply IH. intros j L. apply H. lia.
Qed.
Lemma search_same (hit stop : K -> bool) {A} (k : ptr + ptr -> SP A) fr hd ps h l : body fr hd ps h -> fits hd ps l -> (forall r, hl (k r)) ->
  let p := (fuel <- heap_fuel ;; prev <- hget sl_head ;; level <- hget sl_level ;; r <- descend hit stop fuel level prev ;; k r) in
  exists r h', p (h, ideal hd ps) = (r, (h', ideal hd ps)) /\ p (h, l) = (r, (h', l)).
Proof.
  intros W F Hk p. subst p. rewrite !bind_fuel, !bind_hget. cbn [ideal sl_head sl_level]. rewrite (o_head _ _ (proj1 F)). pose proof (top_fits _ _ _ F) as T.
  assert (E : descend hit stop (S (length h)) (sl_level l) (Some hd) (h, l) = descend hit stop (S (length h)) (top ps) (Some hd) (h, l)).
  { replace (sl_level l) with (top ps + (sl_level l - top ps))%nat by lia. apply descend_drop. intros j L. eapply body_empty; eauto. pose proof (o_level _ _ (proj1 F)). lia. }
  destruct (hl_bind _ _ (hl_descend hit stop (S (length h)) (top ps) (Some hd)) Hk h) as (r & h' & Eh). exists r, h'. split; [apply Eh|].
  rewrite <- (Eh l). unfold bind. now rewrite E.
Qed.
Lemma searchw fr hd ps h l hit stop : body fr hd ps h -> fits hd ps l ->
  (exists c pc, In c ps /\ hit (ck c) = true /\ length pc = skipListMaxLevel /\ descend_prevs hit stop (S (length h)) (sl_level l) (sl_level l) (Some hd) (h, l) = (Ok (inl (Some (ca c))), (h, set_sl_prevs pc l))) \/
  (exists A B pc, ps = A ++ B /\ prevs_ok (sl_level l) pc hd A /\
     descend_prevs hit stop (S (length h)) (sl_level l) (sl_level l) (Some hd) (h, l) = (Ok (inr (Some (lasta hd A))), (h, set_sl_prevs pc l)) /\ last_pass hit stop A /\ blocks hit stop B).
Proof.
  intros R [[Lv Lp Hh] F].
  destruct (descend_prevs_ok hit stop h hd ps (b_cells _ _ _ _ R) (b_chain _ _ _ _ R) (body_fuel _ _ _ _ R) (sl_level l) l [] ps eq_refl (or_introl eq_refl))
    as [(c & pc & I & Hc & Lpc & E)|(A & B & pc & Eps & Lpc & E & LP & Bl & _ & P1 & _)]; auto; [lia| |].
  - left. exists c, pc. auto.
  - right. exists A, B, pc. split; auto. split; [split; auto|]. split; auto. split; auto. specialize (Bl O ltac:(lia)). rewrite tall0 in Bl; auto.
    intros c I. apply (b_height _ _ _ _ R). subst ps. apply in_app_iff. auto.
Qed.
Lemma slicew hd h l : loose hd l -> prevs_slice (K := K) (V := V) (h, l) = (Ok (sl_level l), (h, l)).
Proof. intros [L P _]. unfold prevs_slice. rewrite !bind_hget. assert (Nat.leb (sl_level l) (length (sl_prevs l)) = true) as -> by (apply Nat.leb_le; lia). reflexivity. Qed.

(** *** What the methods rely on *)
Record wspec (eqk gtk : K -> K -> bool) (im : @slimpl K V) : Prop := mkWS {
  ws_find : forall fr hd ps h l key, body fr hd ps h -> fits hd ps l -> exists r h', findNode im key (h, ideal hd ps) = (r, (h', ideal hd ps)) /\ findNode im key (h, l) = (r, (h', l));
  ws_lower : forall fr hd ps h l key, body fr hd ps h -> fits hd ps l -> exists r h', lowerBound im key (h, ideal hd ps) = (r, (h', ideal hd ps)) /\ lowerBound im key (h, l) = (r, (h', l));
  ws_upper : forall fr hd ps h l key, body fr hd ps h -> fits hd ps l -> exists r h', upperBound im key (h, ideal hd ps) = (r, (h', ideal hd ps)) /\ upperBound im key (h, l) = (r, (h', l));
  ws_insert : forall fr hd ps h l key, body fr hd ps h -> fits hd ps l ->
    (exists c pc, In c ps /\ eqk (ck c) key = true /\ length pc = skipListMaxLevel /\ findInsertPoint im key (h, l) = (Ok (Some (ca c), O), (h, set_sl_prevs pc l))) \/
    (exists A B pc, ps = A ++ B /\ parts eqk gtk key A B /\ prevs_ok (sl_level l) pc hd A /\ findInsertPoint im key (h, l) = (Ok (None, sl_level l), (h, set_sl_prevs pc l)));
  ws_remove : forall fr hd ps h l key, body fr hd ps h -> fits hd ps l ->
    exists A B pc, ps = A ++ B /\ remove_parts eqk gtk key A B /\ prevs_ok (sl_level l) pc hd A /\
      findRemovePoint im key (h, l) = (Ok (match B with c :: _ => if eqk (ck c) key then (Some (ca c), sl_level l) else (None, O) | [] => (None, O) end), (h, set_sl_prevs pc l)) }.

Section Points.
Variables eqk gtk : K -> K -> bool.
Lemma insertw fr hd ps h l key : body fr hd ps h -> fits hd ps l ->
  let p := (fuel <- heap_fuel ;; prevs <- prevs_slice ;; prev <- hget sl_head ;; level <- hget sl_level ;;
     r <- descend_prevs (fun k => eqk k key) (fun k => gtk k key) fuel prevs level prev ;;
     match r with inl next => ret (next, O) | inr _ => ret (None, prevs) end) (h, l) in
  (exists c pc, In c ps /\ eqk (ck c) key = true /\ length pc = skipListMaxLevel /\ p = (Ok (Some (ca c), O), (h, set_sl_prevs pc l))) \/
  (exists A B pc, ps = A ++ B /\ parts eqk gtk key A B /\ prevs_ok (sl_level l) pc hd A /\ p = (Ok (None, sl_level l), (h, set_sl_prevs pc l))).
Proof.
  intros R F p. subst p. rewrite bind_fuel, (bind_eq _ _ _ _ _ (slicew _ _ _ (proj1 F))), !bind_hget. rewrite (o_head _ _ (proj1 F)).
  destruct (searchw fr hd ps h l (fun k => eqk k key) (fun k => gtk k key) R F) as [(c & pc & I & Hc & Lp & E)|(A & B & pc & -> & Pv & E & LP & Bl)]; rewrite (bind_eq _ _ _ _ _ E).
  - left. exists c, pc. auto.
  - right. exists A, B, pc. repeat split; auto; apply Pv.
Qed.
Lemma removew fr hd ps h l key : body fr hd ps h -> fits hd ps l ->
  exists A B pc, ps = A ++ B /\ remove_parts eqk gtk key A B /\ prevs_ok (sl_level l) pc hd A /\
   (prevs <- (fuel <- heap_fuel ;; prevs <- prevs_slice ;; prev <- hget sl_head ;; level <- hget sl_level ;;
              _ <- descend_prevs (fun _ => false) (fun k => gek eqk gtk k key) fuel prevs level prev ;; ret prevs) ;;
    p0 <- prevs_get prevs 0 ;; node <- ld_next p0 0 ;;
    if is_nil node then ret (None, O) else k <- ld_key node ;; if negb (eqk k key) then ret (None, O) else ret (node, prevs)) (h, l)
   = (Ok (match B with c :: _ => if eqk (ck c) key then (Some (ca c), sl_level l) else (None, O) | [] => (None, O) end), (h, set_sl_prevs pc l)).
Proof.
  intros R F. destruct (searchw fr hd ps h l (fun _ => false) (fun k => gek eqk gtk k key) R F) as [(c & pc & I & Hc & _)|(A & B & pc & -> & Pv & E & LP & Bl)]; [discriminate|].
  exists A, B, pc. split; auto. split; [split; auto|]. split; auto.
  erewrite bind_eq. 2:{ rewrite bind_fuel. rewrite (bind_eq _ _ _ _ _ (slicew _ _ _ (proj1 F))). rewrite !bind_hget. rewrite (o_head _ _ (proj1 F)).
    rewrite (bind_eq _ _ _ _ _ E). reflexivity. }
  pose proof (o_level _ _ (proj1 F)) as Lv. destruct Pv as [Lp Pv].
  rewrite (bind_eq _ _ _ _ _ (prevs_get_ok h l pc (sl_level l) 0 _ ltac:(lia) (Pv O ltac:(lia)))).
  rewrite tall0 by (intros c I; apply (b_height _ _ _ _ R); apply in_app_iff; auto).
  rewrite (bind_eq _ _ _ _ _ (ld_next_ok h _ _ _ _ (body_last _ _ _ _ _ R))). destruct B as [|c B]; cbn [firstp is_nil]; [reflexivity|].
  assert (Hc : nd h (ca c) = Some (ck c, cv c, ch c)) by (apply (body_cell _ _ _ _ _ R); apply in_app_iff; right; now left).
  rewrite (bind_eq _ _ _ _ _ (ld_key_ok _ _ _ _ _ _ Hc)). destruct (eqk (ck c) key); reflexivity.
Qed.
Lemma same_bind {A B} (p : SP A) (k : A -> SP B) h i l : (exists r h', p (h, i) = (r, (h', i)) /\ p (h, l) = (r, (h', l))) -> (forall a, hl (k a)) ->
  exists r h', bind p k (h, i) = (r, (h', i)) /\ bind p k (h, l) = (r, (h', l)).
Proof.
  intros (r & h1 & E1 & E2) Hk. unfold bind. rewrite E1, E2. destruct r as [a| |]; [|eauto|eauto]. destruct (Hk a h1) as (r & h2 & E). rewrite !E. eauto.
Qed.
End Points.
Lemma hl_upper (f : K -> bool) node : hl (if is_nil node then ret node else k <- ld_key node ;; if f k then ld_next node 0 else ret node).
Proof. destruct (is_nil node); [apply hl_ret|]. apply hl_bind; [apply hl_key|intros k]. destruct (f k); [apply hl_next|apply hl_ret]. Qed.
Lemma ordered_wspec ltb eqb : wspec eqb (fun a b : K => ltb b a) (implOrdered ltb eqb).
Proof.
  constructor; intros fr hd ps h l key R F; cbn [findNode lowerBound upperBound findInsertPoint findRemovePoint implOrdered].
  - refine (search_same _ _ _ fr hd ps h l R F _). intros [r|r]; apply hl_ret.
  - refine (search_same _ _ _ fr hd ps h l R F _). intros [r|r]; [apply hl_ret|apply hl_next].
  - refine (same_bind _ _ _ _ _ (search_same _ _ _ fr hd ps h l R F _) _); [intros [r|r]; [apply hl_ret|apply hl_next]|]. intros node. apply hl_upper.
  - exact (insertw eqb (fun a b : K => ltb b a) fr hd ps h l key R F).
  - exact (removew eqb (fun a b : K => ltb b a) fr hd ps h l key R F).
Qed.
Lemma func_wspec cmp : wspec (fun a b : K => cmp a b =? 0) (fun a b : K => 0 <? cmp a b) (implFunc cmp).
Proof.
  constructor; intros fr hd ps h l key R F; cbn [findNode lowerBound upperBound findInsertPoint findRemovePoint implFunc].
  - refine (same_bind _ _ _ _ _ (search_same _ _ _ fr hd ps h l R F _) _); [intros [r|r]; [apply hl_ret|apply hl_next]|].
    intros node. destruct (is_nil node); [apply hl_ret|]. apply hl_bind; [apply hl_key|intros k]. destruct (cmp k key =? 0); apply hl_ret.
  - refine (search_same _ _ _ fr hd ps h l R F _). intros [r|r]; [apply hl_ret|apply hl_next].
  - refine (same_bind _ _ _ _ _ (search_same _ _ _ fr hd ps h l R F _) _); [intros [r|r]; [apply hl_ret|apply hl_next]|]. intros node. exact (hl_upper (fun k => cmp k key =? 0) node).
  - exact (insertw (fun a b : K => cmp a b =? 0) (fun a b : K => 0 <? cmp a b) fr hd ps h l key R F).
  - destruct (removew (fun a b : K => cmp a b =? 0) (fun a b : K => 0 <? cmp a b) fr hd ps h l key R F) as (A & B & pc & Eps & Rp & Pv & E).
    exists A, B, pc. split; auto. split; auto. split; auto. rewrite <- E. unfold fn_findRemovePoint, fn_findPrevNodes. unfold bind, heap_fuel.
    destruct (prevs_slice (h, l)) as [[n| |] [h1 l1]]; auto. unfold hget.
    rewrite (descend_prevs_ext _ (fun k => 0 <=? cmp k key) (fun k => gek (fun a b : K => cmp a b =? 0) (fun a b : K => 0 <? cmp a b) k key)); auto.
    intros k. unfold gek. lia.
Qed.

(** *** Calls *)
Section Calls.
Variables (eqk gtk : K -> K -> bool) (im : @slimpl K V).
Hypothesis SPm : impl_spec eqk gtk im.
Hypothesis WS : wspec eqk gtk im.
Lemma loose_prevs hd l pc : loose hd l -> length pc = skipListMaxLevel -> loose hd (set_sl_prevs pc l).
Proof using Type. intros [] E. constructor; auto. Qed.

(** **** Calls that do not change the shape *)
Section Reads.
Variables (fr : nat -> option (slnode K V)) (hd : nat) (ps : list (@cell K V)) (h : heap) (l me : sklist).
Hypotheses (B : body fr hd ps h) (F : fits hd ps l) (Lme : loose hd me).
Let i := ideal hd ps.
Let im' := impl_at l im.
Lemma find_two key : exists r, findNode im key (h, i) = (Ok r, (h, i)) /\ forall m, findNode im' key (h, m) = (Ok r, (h, set_sl_prevs (sl_prevs l) m)).
Proof using SPm WS B F.
  destruct (ws_find _ _ _ WS fr hd ps h l key B F) as (r & h' & E1 & E2). pose proof (to_ideal _ _ _ _ _ B F) as R.
  assert (X : exists p, findNode im key (h, i) = (Ok p, (h, i))) by (destruct (sp_find _ _ _ SPm fr hd ps h i key R) as [(c & _ & _ & E)|(A1 & B1 & _ & _ & E)]; eauto).
  destruct X as (p & E). fold i in E1. rewrite E in E1. injection E1 as <- <-. exists p. split; auto. intros m. unfold im'. cbn [impl_at findNode]. unfold elsewhere. cbn [fst snd]. now rewrite E2.
Qed.
Lemma lower_two key : exists r, lowerBound im key (h, i) = (Ok r, (h, i)) /\ forall m, lowerBound im' key (h, m) = (Ok r, (h, set_sl_prevs (sl_prevs l) m)).
Proof using SPm WS B F.
  destruct (ws_lower _ _ _ WS fr hd ps h l key B F) as (r & h' & E1 & E2). pose proof (to_ideal _ _ _ _ _ B F) as R.
  assert (X : exists p, lowerBound im key (h, i) = (Ok p, (h, i))) by (destruct (sp_lower _ _ _ SPm fr hd ps h i key R) as [(A1 & c & B1 & _ & _ & E)|(A1 & B1 & _ & _ & E)]; eauto).
  destruct X as (p & E). fold i in E1. rewrite E in E1. injection E1 as <- <-. exists p. split; auto. intros m. unfold im'. cbn [impl_at lowerBound]. unfold elsewhere. cbn [fst snd]. now rewrite E2.
Qed.
Lemma upper_two key : exists r, upperBound im key (h, i) = (Ok r, (h, i)) /\ forall m, upperBound im' key (h, m) = (Ok r, (h, set_sl_prevs (sl_prevs l) m)).
Proof using SPm WS B F.
  destruct (ws_upper _ _ _ WS fr hd ps h l key B F) as (r & h' & E1 & E2). pose proof (to_ideal _ _ _ _ _ B F) as R.
  assert (X : exists p, upperBound im key (h, i) = (Ok p, (h, i))) by (destruct (sp_upper _ _ _ SPm fr hd ps h i key R) as [(A1 & c & B1 & _ & _ & E)|(A1 & B1 & _ & _ & E)]; eauto).
  destruct X as (p & E). fold i in E1. rewrite E in E1. injection E1 as <- <-. exists p. split; auto. intros m. unfold im'. cbn [impl_at upperBound]. unfold elsewhere. cbn [fst snd]. now rewrite E2.
Qed.
(** p on the ideal struct does what p' does on me. *)
Definition two {A} (p p' : SP A) : Prop := exists r h' pc, p (h, i) = (r, (h', i)) /\ p' (h, me) = (r, (h', set_sl_prevs pc me)) /\ length pc = skipListMaxLevel.
Lemma two_hl {A} (p : SP A) : hl p -> two p p.
Proof using Lme. intros H. destruct (H h) as (r & h' & E). exists r, h', (sl_prevs me). rewrite !E. split; auto. split; [now destruct me|apply (o_prevs _ _ Lme)]. Qed.
Lemma two_head {A} (k : ptr -> SP A) : (forall p, hl (k p)) -> two (bind (hget sl_head) k) (bind (hget sl_head) k).
Proof using Lme. intros H. unfold two. rewrite !bind_hget. cbn [i ideal sl_head]. rewrite (o_head _ _ Lme). exact (two_hl _ (H (Some hd))). Qed.
Lemma two_fuel {A} (k k' : nat -> SP A) : two (k (S (length h))) (k' (S (length h))) -> two (bind heap_fuel k) (bind heap_fuel k').
Proof using Type. auto. Qed.
Lemma two_bind {A C} (p p' : SP A) (k : A -> SP C) : two p p' -> (forall a, hl (k a)) -> two (bind p k) (bind p' k).
Proof using Type.
  intros (r & h1 & pc & E1 & E2 & L) Hk. unfold two, bind. rewrite E1, E2. destruct r as [a| |]; [|eexists _, _, _; eauto|eexists _, _, _; eauto].
  destruct (Hk a h1) as (r & h2 & E). rewrite !E. eexists _, _, _. eauto.
Qed.
Lemma two_show {A R} (f : A -> R) (p p' : SP A) : two p p' -> two (show f p) (show f p').
Proof using Type. intros (r & h1 & pc & E1 & E2 & L). unfold two, show. rewrite E1, E2. eexists _, _, _. eauto. Qed.
Lemma two_find key : two (findNode im key) (findNode im' key).
Proof using SPm WS B F. destruct (find_two key) as (r & E1 & E2). exists (Ok r), h, (sl_prevs l). split; auto. split; auto. apply (o_prevs _ _ (proj1 F)). Qed.
Lemma two_lower key : two (lowerBound im key) (lowerBound im' key).
Proof using SPm WS B F. destruct (lower_two key) as (r & E1 & E2). exists (Ok r), h, (sl_prevs l). split; auto. split; auto. apply (o_prevs _ _ (proj1 F)). Qed.
Lemma two_upper key : two (upperBound im key) (upperBound im' key).
Proof using SPm WS B F. destruct (upper_two key) as (r & E1 & E2). exists (Ok r), h, (sl_prevs l). split; auto. split; auto. apply (o_prevs _ _ (proj1 F)). Qed.
Lemma hl_Find n : hl (A := ptr) (if negb (is_nil n) then ret n else ret None).
Proof using Type. destruct (negb (is_nil n)); apply hl_ret. Qed.
Lemma two_Find key : two (Find im key) (Find im' key).
Proof using SPm WS B F. apply two_bind; [apply two_find|apply hl_Find]. Qed.
Lemma two_walk p p' : two p p' -> two (walk p) (walk p').
Proof using Type. intros H. apply two_fuel. apply two_bind; auto. intros it. apply hl_iter_loop. Qed.
Lemma read_two {St} (o : mop K V St) : keeps_shape o = true -> (match o with MLen | MIsEmpty => False | _ => True end) -> two (map_step im o) (map_step im' o).
Proof using SPm WS B F Lme.
  intros Ks H. destruct o; try discriminate Ks; try contradiction; cbn [map_step]; apply two_show.
  - apply two_bind; [apply two_Find|]. intros p. destruct (is_nil p); [apply hl_ret|]. apply hl_bind; [apply hl_value|intros; apply hl_ret].
  - apply two_bind; [apply two_find|]. intros p. apply hl_ret.
  - apply two_bind; [apply two_Find|]. intros p. destruct (is_nil p); [apply hl_ret|]. apply hl_bind; [apply hl_st_value|intros; apply hl_ret].
  - apply two_walk, two_bind; [apply two_lower|]. intros; apply hl_ret.
  - apply two_walk, two_bind; [apply two_upper|]. intros; apply hl_ret.
  - apply two_walk. unfold FindRange. destruct (lower_two first) as (r1 & E1 & E2), (upper_two last) as (r2 & E3 & E4). exists (Ok (r1, r2)), h, (sl_prevs l).
    rewrite (bind_eq _ _ _ _ _ E1), (bind_eq _ _ _ _ _ E3), (bind_eq _ _ _ _ _ (E2 me)), (bind_eq _ _ _ _ _ (E4 _)). split; [reflexivity|]. split; [reflexivity|]. apply (o_prevs _ _ (proj1 F)).
  - apply two_walk. apply two_head. intros p. apply hl_bind; [apply hl_next|intros; apply hl_ret].
  - apply two_fuel, two_head. intros p. apply hl_bind; [apply hl_next|intros; apply hl_ForEach].
  - apply two_fuel, two_head. intros p. apply hl_bind; [apply hl_next|intros; apply hl_ForEachIf].
  - apply two_fuel, two_head. intros p. apply hl_bind; [apply hl_next|intros; apply hl_ForEachMutable].
  - apply two_fuel, two_head. intros p. apply hl_bind; [apply hl_next|intros; apply hl_ForEachMutableIf].
Qed.
End Reads.

(** **** Insert *)
Lemma body_put fr hd ps h l a v : body fr hd ps h -> fits hd ps l -> In a (addrs ps) -> body fr hd (put a v ps) (sv a v h).
Proof using Type. intros B F I. pose proof (to_ideal _ _ _ _ _ B F) as R. exact (proj1 (rep_body _ _ _ _ _ (rep_put _ _ _ _ _ a v R I))). Qed.
Lemma put_ch a v ps c : In c (put a v ps) -> exists d, In d ps /\ ch c = ch d.
Proof using Type. unfold put. rewrite in_map_iff. intros (d & <- & I). exists d. split; auto. now destruct (Nat.eqb (ca d) a). Qed.
Lemma fits_put hd ps l a v : fits hd ps l -> fits hd (put a v ps) l.
Proof using Type. intros [L F]. split; auto. intros c I. apply put_ch in I as (d & I & ->). auto. Qed.
Lemma Insertw fr hd ps h l me key value r (own : bool) : body fr hd ps h -> fits hd ps l -> loose hd me -> (own = true -> me = l) ->
  (exists c h' me', In c ps /\ eqk (ck c) key = true /\ Insert (impl_at l im) key value r (h, me) = (Ok tt, (h', me')) /\ body fr hd (put (ca c) value ps) h' /\
     loose hd me' /\ fits hd (put (ca c) value ps) (if own then me' else l) /\ sl_len me' = sl_len me) \/
  (exists A B c, ps = A ++ B /\ parts eqk gtk key A B /\ ck c = key /\ cv c = value /\ ~ In (ca c) (hd :: addrs ps) /\
     (own = true \/ (randomLevel r (sl_len me) <= sl_level l)%nat /\ (randomLevel r (sl_len me) <= sl_level me)%nat ->
      exists h' me', Insert (impl_at l im) key value r (h, me) = (Ok tt, (h', me')) /\ body fr hd (A ++ c :: B) h' /\ loose hd me' /\ fits hd (A ++ c :: B) (if own then me' else l) /\ sl_len me' = sl_len me + 1)).
Proof using WS.
  intros Bo F Lme Own. unfold Insert.
  assert (Em : forall pc p, findInsertPoint im key (h, l) = (Ok p, (h, set_sl_prevs pc l)) -> findInsertPoint (impl_at l im) key (h, me) = (Ok p, (h, set_sl_prevs pc me))).
  { intros pc p E. cbn [impl_at findInsertPoint]. unfold elsewhere. cbn [fst snd]. rewrite E. reflexivity. }
  destruct (ws_insert _ _ _ WS fr hd ps h l key Bo F) as [(c & pc & I & Hc & Lp & E)|(A & B & pc & -> & Pt & Pv & E)]; apply Em in E.
  - left. exists c, (sv (ca c) value h), (set_sl_prevs pc me). split; auto. split; auto. rewrite (bind_eq _ _ _ _ _ E). cbn [is_nil negb].
    rewrite (st_value_ok _ _ _ _ _ (body_cell _ _ _ _ _ Bo I)). split; auto. split; [eapply body_put; eauto; now apply in_map|]. split; [now apply loose_prevs|]. split; auto.
    apply fits_put. destruct own; auto. rewrite (Own eq_refl). destruct F as [F1 F2]. split; [now apply loose_prevs|exact F2].
  - right. set (lv := randomLevel r (sl_len me)). set (c := mkC (length h) lv key value). exists A, B, c. split; auto. split; auto. split; auto. split; auto.
    pose proof Bo as Bo0. destruct Bo as [Kp Hd Ce Cn Nn Ab He].
    assert (Old : forall a, In a (hd :: addrs (A ++ B)) -> (a < length h)%nat).
    { intros a [<-|I]; [destruct Hd as (k & v & E1); now apply nd_lt in E1|]. apply in_map_iff in I as (d & <- & I). rewrite Forall_forall in Ce. exact (nd_lt _ _ _ (Ce d I)). }
    assert (NI : ~ In (ca c) (hd :: addrs (A ++ B))) by (intros I; apply Old in I; cbn in I; lia). split; auto.
    intros Low. rewrite (bind_eq _ _ _ _ _ E). cbn [is_nil negb]. rewrite bind_hget. change (sl_len (set_sl_prevs pc me)) with (sl_len me). fold lv.
    pose proof (randomLevel_range r (sl_len me)) as Bl. fold lv in Bl, Low. unfold newSkipListNode. rewrite (nexts_len_ok lv Bl).
    set (node := mkSLNode key value (repeat None lv)). rewrite bind_pnew, bind_hget. change (sl_level (set_sl_prevs pc me)) with (sl_level me). rewrite max_ltb.
    change (Some (length h)) with (Some (ca c)).
    set (h1 := h ++ [node]).
    assert (Nx1 : forall b j, b <> length h -> nx h1 b j = nx h b j) by (intros b j NE; unfold h1; rewrite nx_new; destruct (Nat.eqb_spec b (length h)); [contradiction|reflexivity]).
    assert (Nd1 : forall b, b <> length h -> nd h1 b = nd h b) by (intros b NE; unfold h1; rewrite nd_new; destruct (Nat.eqb_spec b (length h)); [contradiction|reflexivity]).
    assert (Nxn : forall j, (j < lv)%nat -> nx h1 (ca c) j = Some None).
    { intros j Lj. unfold h1. rewrite nx_new. cbn [ca c]. rewrite Nat.eqb_refl. cbn [n_next node]. rewrite nth_error_repeat; auto. }
    assert (Ndn : nd h1 (ca c) = Some (key, value, lv)) by (unfold h1; rewrite nd_new; cbn [ca c]; rewrite Nat.eqb_refl; cbn; now rewrite repeat_length).
    destruct Pv as [Lp Pv]. destruct F as [Fl Fh]. pose proof (o_level _ _ Fl) as Lvl. pose proof (o_level _ _ Lme) as Lvm. pose proof (o_head _ _ Lme) as Hh.
    assert (Mn : (Nat.min lv (sl_level me) <= sl_level l)%nat) by (destruct Low as [->|[Lo1 Lo2]]; [rewrite (Own eq_refl); lia|lia]).
    destruct (link_loop_ok hd A c B pc me (sl_level l) Nn NI Pv ltac:(lia) (Nat.min lv (sl_level me)) 0 h1) as (h2 & E2 & Lk2 & Nd2 & Ln2 & Nx2 & Kp2); try (cbn; lia).
    { intros j Lj. assert (Nat.ltb j 0 = false) as -> by (apply Nat.ltb_ge; lia). cbn [andb app]. rewrite <- tall_app. apply (chain_frame h); auto.
      intros x I. apply Nx1. assert (In x (hd :: addrs (A ++ B))) by (destruct I as [<-|I]; [now left|right; now apply addrs_tall_in in I]). specialize (Old x H). lia. }
    { intros j Lj. exists None. apply Nxn. exact Lj. }
    { intros a Na. destruct (nd h1 a) eqn:Ea; [now apply nd_lt in Ea|congruence]. }
    rewrite (bind_eq _ _ _ _ _ E2). cbn [Nat.add] in *.
    assert (Ab' : forall a, In a (ca c :: hd :: addrs (A ++ B)) -> fr a = None).
    { intros a [<-|I]; [cbn; now apply keeps_new|now apply Ab]. }
    assert (Kp1 : keeps fr h2) by (apply Kp2; auto; now apply keeps_app).
    assert (Fin : exists h3 l3, ((if Nat.ltb (sl_level me) lv then raise_loop (lv - sl_level me) (sl_level me) (Some (ca c));; hmod (set_sl_level lv) else ret tt) (h2, set_sl_prevs pc me)) = (Ok tt, (h3, l3)) /\
       linked h3 hd A c B lv /\ (forall a, nd h3 a = nd h1 a) /\ keeps fr h3 /\ sl_level l3 = Nat.max lv (sl_level me) /\ sl_len l3 = sl_len me /\ sl_head l3 = Some hd /\ sl_prevs l3 = pc).
    { destruct (Nat.ltb_spec (sl_level me) lv) as [Lt|Ge].
      - assert (me = l) as -> by (destruct Low as [Lo|Lo]; [auto|lia]).
        destruct (raise_loop_ok hd A c B (set_sl_prevs pc l) Hh) with (todo := (lv - sl_level l)%nat) (i := sl_level l) (h := h2) as (h3 & E3 & Lk3 & Nd3 & Ln3 & Kp3).
        + intros E3. apply NI. rewrite E3. now left.
        + cbn. lia.
        + cbn. lia.
        + rewrite Nat.min_r in Lk2 by lia. exact Lk2.
        + intros j Lj. split; [|split].
          * apply tall_none. intros d I. assert (ch d <= sl_level l)%nat by (apply Fh; apply in_app_iff; auto). lia.
          * apply tall_none. intros d I. assert (ch d <= sl_level l)%nat by (apply Fh; apply in_app_iff; auto). lia.
          * rewrite Nx2 by lia. apply Nxn. cbn in Lj. lia.
        + exists h3, (set_sl_level lv (set_sl_prevs pc l)). rewrite (bind_eq _ _ _ _ _ E3). split; [reflexivity|]. split; auto. split; [intros a; rewrite Nd3; apply Nd2|].
          split; [apply Kp3; auto; apply Ab; now left|]. cbn. repeat split; auto. lia.
      - exists h2, (set_sl_prevs pc me). split; [reflexivity|]. rewrite Nat.min_l in Lk2 by lia. split; [exact Lk2|]. split; [exact Nd2|]. split; [exact Kp1|]. cbn. repeat split; auto. lia. }
    destruct Fin as (h3 & l3 & E3 & Lk3 & Nd3 & Kp3 & Lv3 & Le3 & Hd3 & Pv3). rewrite (bind_eq _ _ _ _ _ E3), bind_hget.
    exists h3, (set_sl_len (sl_len l3 + 1) l3). split; [reflexivity|]. split; [|split; [|split]].
    + constructor; auto.
      * destruct Hd as (k & v & E4). exists k, v. rewrite Nd3, Nd1; auto. assert (hd < length h)%nat by (apply Old; now left). lia.
      * apply Forall_forall. intros d I. unfold cellok. rewrite Nd3. apply in_app_iff in I as [I|[<-|I]].
        -- rewrite Nd1; [rewrite Forall_forall in Ce; apply Ce; apply in_app_iff; auto|]. assert (ca d < length h)%nat by (apply Old; right; apply in_map; apply in_app_iff; auto). lia.
        -- exact Ndn.
        -- rewrite Nd1; [rewrite Forall_forall in Ce; apply Ce; apply in_app_iff; auto|]. assert (ca d < length h)%nat by (apply Old; right; apply in_map; apply in_app_iff; auto). lia.
      * intros j Lj. specialize (Lk3 j Lj). cbn [ch c] in Lk3. rewrite tall_app. cbn [tall filter ch c]. destruct (Nat.ltb j lv); exact Lk3.
      * unfold addrs. rewrite map_app. cbn [map]. change (hd :: map ca A ++ ca c :: map ca B) with ((hd :: map ca A) ++ ca c :: map ca B). apply NoDup_Add with (a := ca c) (l := hd :: addrs (A ++ B)).
        -- unfold addrs. rewrite map_app. apply Add_app with (l1 := hd :: map ca A).
        -- split; auto.
      * intros a I. apply Ab'. unfold addrs in *. rewrite map_app in I. cbn [map] in I. destruct I as [<-|I]; [right; now left|]. apply in_app_iff in I as [I|[I|I]]; [|now left|]; right; right; rewrite map_app; apply in_app_iff; auto.
      * intros d I. apply in_app_iff in I as [I|[<-|I]]; [apply He; apply in_app_iff; auto|cbn; lia|apply He; apply in_app_iff; auto].
    + constructor; cbn [set_sl_len sl_level sl_len sl_head sl_prevs]; auto; [lia|now rewrite Pv3].
    + assert (Hfit : forall lo, loose hd lo -> (lv <= sl_level lo)%nat -> (sl_level l <= sl_level lo)%nat -> fits hd (A ++ c :: B) lo).
      { intros lo H1 H2 H3. split; auto. intros d I. apply in_app_iff in I as [I|[<-|I]].
        - assert (ch d <= sl_level l)%nat by (apply Fh; apply in_app_iff; auto). lia.
        - exact H2.
        - assert (ch d <= sl_level l)%nat by (apply Fh; apply in_app_iff; auto). lia. }
      destruct own.
      * rewrite (Own eq_refl) in *. apply Hfit; cbn [set_sl_len sl_level]; [|lia|lia]. constructor; cbn [set_sl_len sl_level sl_len sl_head sl_prevs]; auto; [lia|now rewrite Pv3].
      * destruct Low as [Lo|[Lo1 Lo2]]; [discriminate|]. apply Hfit; auto.
    + cbn. now rewrite Le3.
Qed.

(** **** Remove *)
Lemma shrinkw hd h : (forall j, (j < skipListMaxLevel)%nat -> exists q, nx h hd j = Some q) -> forall fuel l, (sl_level l < fuel)%nat -> (1 <= sl_level l <= skipListMaxLevel)%nat -> sl_head l = Some hd ->
  exists lv, shrink_loop (K := K) (V := V) fuel (h, l) = (Ok tt, (h, set_sl_level lv l)) /\ (1 <= lv <= sl_level l)%nat /\ (forall j, (lv <= j < sl_level l)%nat -> nx h hd j = Some None).
Proof using Type.
  intros Nx. induction fuel as [|fuel IH]; intros l Lf Lv Hh; [lia|]. cbn [shrink_loop]. rewrite bind_hget.
  destruct (Nat.ltb_spec 1 (sl_level l)) as [L1|L1]; cbn [negb].
  - rewrite bind_hget, Hh. destruct (Nx (sl_level l - 1)%nat ltac:(lia)) as (q & Eq). rewrite (bind_eq _ _ _ _ _ (ld_next_ok h l _ _ _ Eq)).
    destruct q as [q|]; cbn [is_nil].
    + exists (sl_level l). split; [destruct l; reflexivity|]. split; [lia|]. intros j Lj. lia.
    + rewrite bind_hmod. destruct (IH (set_sl_level (sl_level l - 1) l)) as (lv & E & Bv & H); cbn; auto; try lia.
      exists lv. split; [rewrite E; reflexivity|]. cbn in Bv, H. split; [lia|]. intros j Lj. destruct (Nat.eq_dec j (sl_level l - 1)) as [->|]; auto. apply H. lia.
  - exists (sl_level l). split; [destruct l; reflexivity|]. split; [lia|]. intros j Lj. lia.
Qed.
Lemma Removew fr hd ps h l me key (own : bool) : body fr hd ps h -> fits hd ps l -> loose hd me -> (own = true -> me = l) -> exists A B h' me',
  ps = A ++ B /\ remove_parts eqk gtk key A B /\ loose hd me' /\
  match B with
  | c :: B' => if eqk (ck c) key then Remove (impl_at l im) key (h, me) = (Ok true, (h', me')) /\ body fr hd (A ++ B') h' /\ fits hd (A ++ B') (if own then me' else l) /\ sl_len me' = sl_len me - 1
               else Remove (impl_at l im) key (h, me) = (Ok false, (h', me')) /\ body fr hd ps h' /\ fits hd ps (if own then me' else l) /\ sl_len me' = sl_len me
  | [] => Remove (impl_at l im) key (h, me) = (Ok false, (h', me')) /\ body fr hd ps h' /\ fits hd ps (if own then me' else l) /\ sl_len me' = sl_len me
  end.
Proof using WS.
  intros Bo F Lme Own. unfold Remove. destruct (ws_remove _ _ _ WS fr hd ps h l key Bo F) as (A & B & pc & -> & Rp & [Lp Pv] & E0).
  assert (E : findRemovePoint (impl_at l im) key (h, me) = (Ok (match B with c :: _ => if eqk (ck c) key then (Some (ca c), sl_level l) else (None, O) | [] => (None, O) end), (h, set_sl_prevs pc me))).
  { cbn [impl_at findRemovePoint]. unfold elsewhere. cbn [fst snd]. rewrite E0. reflexivity. }
  rewrite (bind_eq _ _ _ _ _ E). exists A, B.
  assert (Keep : fits hd (A ++ B) (if own then set_sl_prevs pc me else l)).
  { destruct own; auto. rewrite (Own eq_refl). destruct F as [F1 F2]. split; [now apply loose_prevs|exact F2]. }
  destruct B as [|c B].
  { exists h, (set_sl_prevs pc me). cbn [is_nil]. split; auto. split; auto. split; [now apply loose_prevs|]. auto. }
  destruct (eqk (ck c) key) eqn:Ek; cbn [is_nil].
  2:{ exists h, (set_sl_prevs pc me). split; auto. split; auto. split; [now apply loose_prevs|]. auto. }
  clear Keep. assert (Ic : In c (A ++ c :: B)) by (apply in_app_iff; right; now left).
  pose proof (body_cell _ _ _ _ _ Bo Ic) as Nc.
  destruct (nth_error h (ca c)) as [n|] eqn:En; [|unfold nd in Nc; rewrite En in Nc; discriminate].
  rewrite (bind_eq _ _ _ _ _ (Proof_Nodes.pload_ok h _ _ _ En)).
  assert (Ll : length (n_next n) = ch c) by (unfold nd in Nc; rewrite En in Nc; cbn in Nc; now injection Nc). rewrite Ll.
  destruct Bo as [Kp Hd Ce Cn Nn Ab He]. destruct F as [Fl Fh]. pose proof (o_level _ _ Fl) as Lvl. pose proof (o_level _ _ Lme) as Lvm. pose proof (o_head _ _ Lme) as Hh.
  destruct (unlink_loop_ok hd A c B pc me (sl_level l) Nn Pv ltac:(lia) (ch c) 0 h) as (h1 & E1 & Lk1 & Nd1 & Nx1 & Ln1 & Kp1); try (specialize (He c Ic); specialize (Fh c Ic); lia).
  { intros j Lj. cbn [Nat.leb andb]. specialize (Cn j Lj). rewrite tall_app in Cn. cbn [tall filter] in Cn. destruct (Nat.ltb j (ch c)); exact Cn. }
  rewrite (bind_eq _ _ _ _ _ E1), bind_hget. change (sl_level (set_sl_prevs pc me)) with (sl_level me).
  assert (Ch1 : forall i, (i < skipListMaxLevel)%nat -> chain h1 i hd (tall i (A ++ B))).
  { intros i Li. specialize (Lk1 i Li). rewrite tall_app. replace (Nat.leb (ch c) i && Nat.ltb i (ch c)) with false in Lk1; [exact Lk1|].
    destruct (Nat.leb_spec (ch c) i), (Nat.ltb_spec i (ch c)); cbn; auto; lia. }
  assert (Inc : forall d, In d (A ++ B) -> In d (A ++ c :: B)) by (intros d I; apply in_app_iff in I as [I|I]; apply in_app_iff; [now left|right; now right]).
  destruct (shrinkw hd h1) with (fuel := S (sl_level me)) (l := set_sl_prevs pc me) as (lv & E2 & Blv & Emp); cbn; auto; try lia.
  { intros j Lj. destruct Hd as (k & v & E3). apply (nd_nx h1 hd k v skipListMaxLevel); auto. now rewrite Nd1. }
  rewrite (bind_eq _ _ _ _ _ E2), bind_hget, bind_hmod. cbn [sl_level set_sl_prevs] in Blv, Emp.
  eexists h1, _. split; auto. split; auto.
  set (me' := set_sl_len _ _). assert (Lm' : loose hd me') by (constructor; cbn; auto; lia). split; [exact Lm'|]. split; [reflexivity|]. split; [|split; [|reflexivity]].
  - constructor; auto.
    + apply Kp1; auto. intros a I. apply Ab. destruct I as [<-|I]; [now left|]. right. unfold addrs. rewrite map_app. apply in_app_iff. now left.
    + destruct Hd as (k & v & Eh). exists k, v. now rewrite Nd1.
    + apply Forall_forall. intros d I. unfold cellok. rewrite Nd1. rewrite Forall_forall in Ce. apply Ce. auto.
    + unfold addrs in *. rewrite map_app in *. cbn [map] in Nn. change (hd :: map ca A ++ ca c :: map ca B) with ((hd :: map ca A) ++ ca c :: map ca B) in Nn. now apply NoDup_remove_1 in Nn.
    + intros a [<-|I]; [apply Ab; now left|]. apply Ab. right. unfold addrs in *. rewrite map_app in *. cbn. apply in_app_iff in I as [I|I]; apply in_app_iff; [now left|right; now right].
  - destruct own; [|split; auto]. assert (Em : sl_level me = sl_level l) by now rewrite (Own eq_refl). split; [exact Lm'|]. intros d I. change (ch d <= lv)%nat.
    destruct (Nat.le_gt_cases (ch d) lv) as [|Gt]; auto. exfalso. specialize (Fh d (Inc d I)). specialize (Emp (ch d - 1)%nat ltac:(lia)).
    pose proof (Ch1 (ch d - 1)%nat ltac:(lia)) as C. apply chain_first in C. rewrite Emp in C. destruct (tall (ch d - 1) (A ++ B)) as [|e t] eqn:Et; [|discriminate].
    assert (In d (tall (ch d - 1) (A ++ B))) by (apply tall_in; split; auto; lia). rewrite Et in H. contradiction.
Qed.
(** **** Clear *)
Lemma Clearw fr hd ps h me : body fr hd ps h -> loose hd me -> exists h' me', Clear (K := K) (V := V) (h, me) = (Ok tt, (h', me')) /\ body fr hd [] h' /\ loose hd me' /\ sl_len me' = 0.
Proof using Type.
  intros [Kp (k & v & Hd) Ce Cn Nn Ab He] [Lv Lp Hh]. unfold Clear. rewrite bind_hget, Hh.
  destruct (nth_error h hd) as [n|] eqn:En; [|unfold nd in Hd; rewrite En in Hd; discriminate]. rewrite (bind_eq _ _ _ _ _ (Proof_Nodes.pload_ok h _ _ _ En)).
  assert (Ll : length (n_next n) = skipListMaxLevel) by (unfold nd in Hd; rewrite En in Hd; cbn in Hd; now injection Hd). rewrite Ll.
  destruct (clear_loop_ok hd me Hh skipListMaxLevel 0 h) as (h' & E & D & Nd & Kp'); auto; [intros j Lj; exact (nd_nx _ _ _ _ _ _ Hd Lj)|lia|].
  rewrite (bind_eq _ _ _ _ _ E), bind_hmod. eexists h', _. split; [reflexivity|]. split; [|split; [constructor; cbn; auto; lia|reflexivity]].
  constructor; auto.
  - apply Kp'; auto. apply Ab. now left.
  - exists k, v. now rewrite Nd.
  - intros i Li. cbn. split; [exact I|]. now apply D.
  - constructor; [tauto|constructor].
  - intros a [<-|[]]. apply Ab. now left.
  - intros c [].
Qed.
End Calls.

(** *** With an order *)
Definition wkind (im : @slimpl K V) (lt : K -> K -> bool) : Prop := exists eqk gtk, impl_spec eqk gtk im /\ wspec eqk gtk im /\ strict_weak lt /\
  (forall a b, eqk a b = eqv lt a b) /\ (forall a b, gtk a b = lt b a).
Definition polite_call {St} (lt : K -> K -> bool) (o : mop K V St) (m : list (K * V)) : Prop :=
  match o with MInsert k _ r => has lt k m = true \/ low_draw r = true | _ => True end.
Definition view_answer {St} (lt : K -> K -> bool) (o : mop K V St) (m : list (K * V)) (n : Z) : outcome (mres K V St) :=
  match o with MLen => Ok (MInt n) | MIsEmpty => Ok (MBool (n =? 0)) | _ => fst (map_spec lt o m) end.
Lemma low_level r len : low_draw r = true -> randomLevel r len = 1%nat.
Proof.
  intros T. unfold low_draw in T. unfold randomLevel. change (2 ^ Z.of_nat skipListMaxLevel - 1) with (Z.ones 40). change (Z.of_nat skipListMaxLevel) with 40.
  set (k := Z.land r (Z.ones 40)). assert (Bk : 0 <= k < 2 ^ 40) by (unfold k; rewrite Z.land_ones by lia; apply Z.mod_pos_bound; lia).
  assert (Tk : Z.testbit k 39 = true) by (unfold k; rewrite Z.land_spec, T, Z.ones_spec_low by lia; reflexivity).
  assert (Ek : bits_Len64 k = 40).
  { unfold bits_Len64. destruct (Z.eqb_spec k 0) as [->|]; [rewrite Z.bits_0 in Tk; discriminate|].
    assert (Z.log2 k < 40) by (apply Z.log2_lt_pow2; lia). assert (39 <= Z.log2 k); [|lia]. destruct (Z_lt_le_dec (Z.log2 k) 39) as [L|]; auto. rewrite Z.bits_above_log2 in Tk by lia. discriminate. }
  rewrite Ek. reflexivity.
Qed.
Lemma body_nodup fr hd ps h : body fr hd ps h -> NoDup (addrs ps).
Proof. intros B. pose proof (b_nodup _ _ _ _ B) as N. now inversion N. Qed.
Lemma shape_ch (X Y : list (@cell K V)) (c : @cell K V) : same_shape X Y -> In c X -> exists d, In d Y /\ ch c = ch d.
Proof.
  unfold same_shape. intros E I. assert (I2 : In (ca c, ch c, ck c) (map (fun c => (ca c, ch c, ck c)) Y)) by (rewrite <- E; now apply (in_map (fun c => (ca c, ch c, ck c)))).
  apply in_map_iff in I2 as (d & E2 & I2). injection E2 as _ E3 _. exists d. auto.
Qed.
Lemma core {St} im lt fr hd ps h l me (own : bool) (o : mop K V St) : wkind im lt -> body fr hd ps h -> fits hd ps l -> loose hd me -> (own = true -> me = l) -> (own = false -> polite_call lt o (kvs ps)) -> ksorted lt (kvs ps) ->
  exists ps' h' me', map_step (impl_at l im) o (h, me) = (view_answer lt o (kvs ps) (sl_len me), (h', me')) /\ kvs ps' = snd (map_spec lt o (kvs ps)) /\ ksorted lt (kvs ps') /\
    body fr hd ps' h' /\ loose hd me' /\ fits hd ps' (if own then me' else l) /\ sl_len me' = next_len lt o (kvs ps) (sl_len me).
Proof.
  intros (eqk & gtk & SPm & WS & SW & Eq & Gt) Bo F Lme Own Pol S.
  assert (Same : fits hd ps (if own then me else l)) by (destruct own; auto; rewrite (Own eq_refl); exact F).
  set (any := fun _ : K => true).
  assert (G : forall m : list (K * V), Forall (fun p => any (fst p) = true) m) by (intros m; apply Forall_forall; reflexivity).
  assert (Eq' : forall a b : K, any a = true -> any b = true -> eqk a b = eqv lt a b) by auto.
  assert (Gt' : forall a b : K, any a = true -> any b = true -> gtk a b = lt b a) by auto.
  assert (Rd : keeps_shape o = true -> (match o with MLen | MIsEmpty => False | _ => True end) -> next_len lt o (kvs ps) (sl_len me) = sl_len me -> view_answer lt o (kvs ps) (sl_len me) = fst (map_spec lt o (kvs ps)) ->
    exists ps' h' me', map_step (impl_at l im) o (h, me) = (view_answer lt o (kvs ps) (sl_len me), (h', me')) /\ kvs ps' = snd (map_spec lt o (kvs ps)) /\ ksorted lt (kvs ps') /\
    body fr hd ps' h' /\ loose hd me' /\ fits hd ps' (if own then me' else l) /\ sl_len me' = next_len lt o (kvs ps) (sl_len me)).
  { intros Ks No -> ->. destruct (read_two eqk gtk im SPm WS fr hd ps h l me Bo F Lme o Ks No) as (r & h' & pc & E1 & E2 & Lp).
    pose proof (to_ideal _ _ _ _ _ Bo F) as R. assert (Go : good_op any o = true) by (destruct o; reflexivity).
    destruct (step_cells eqk gtk im SPm lt SW any Eq' Gt' fr hd ps (h, ideal hd ps) o R (G _) Go S) as (ps' & E & Ek & R' & S' & Sv). rewrite E1 in E, R'. cbn [fst snd] in E, R'.
    exists ps', h', (set_sl_prevs pc me). rewrite E2, E. split; auto. split; auto. split; auto. destruct (rep_body _ _ _ _ _ R') as [B' _]. split; auto. split; [now apply loose_prevs|]. split; [|reflexivity].
    destruct Same as [_ Sh]. split; [destruct own; [now apply loose_prevs|apply F]|]. intros c I. destruct (shape_ch _ _ _ (proj2 Sv Ks) I) as (d & Id & ->). specialize (Sh d Id). destruct own; exact Sh. }
  destruct o; try (apply Rd; solve [auto|exact I]); clear Rd; cbn [map_step map_spec view_answer next_len fst snd]; unfold show.
  - destruct (Insertw eqk gtk im WS fr hd ps h l me k v r own Bo F Lme Own) as [(c & h' & me' & I & Hc & E & B' & L' & F' & Le)|(A & B & c & -> & Pt & Ek & Ev & NI & H)].
    + destruct (rep_in_split _ _ I) as (A & B & ->). rewrite Eq in Hc. destruct (found_pos lt SW k A c B S Hc) as (H1 & H2 & H3).
      rewrite put_mid in * by (eapply body_nodup; eauto). exists (A ++ set_cv v c :: B), h', me'. rewrite E.
      assert (Hh : has lt k (kvs (A ++ c :: B)) = true) by (change (c :: B) with ([c] ++ B); rewrite !kvs_app; apply (pos_has lt k _ _ _ H1 H2 H3)).
      rewrite Hh. split; auto. split; [|split; auto].
      * unfold insert. rewrite Hh. change (c :: B) with ([c] ++ B). rewrite !kvs_app. rewrite (pos_set lt k (kvs A) (kvs [c]) (kvs B) H1 H2 H3). reflexivity.
      * apply (ksorted_keys lt (kvs (A ++ c :: B))); auto. unfold kvs. rewrite !map_map, !map_app. reflexivity.
    + destruct (parts_pos eqk gtk lt SW any Eq' Gt' k A B (G _) eq_refl S Pt) as [H1 H3].
      assert (Hh : has lt k (kvs (A ++ B)) = false) by (rewrite kvs_app; exact (pos_has lt k (kvs A) [] (kvs B) H1 ltac:(constructor) H3)).
      destruct H as (h' & me' & E & B' & L' & F' & Le).
      { destruct own; [now left|]. right. destruct (Pol eq_refl) as [P|P]; [congruence|]. rewrite (low_level _ _ P). pose proof (o_level _ _ (proj1 F)). pose proof (o_level _ _ Lme). lia. }
      exists (A ++ c :: B), h', me'. rewrite E, Hh. split; auto. split; [|split; auto].
      * rewrite !kvs_app. pose proof (pos_insert lt SW k (kvs A) [] (kvs B) H1 ltac:(constructor) H3 v eq_refl) as Hi. cbn [app] in Hi. rewrite Hi. cbn [kvs map]. now rewrite Ek, Ev.
      * rewrite kvs_app in *. apply SS_app_inv in S as (S1 & S2 & S3). apply SS_app; auto.
        -- cbn [kvs map]. constructor; auto. rewrite Ek. cbn. exact H3.
        -- rewrite Forall_forall in S3, H1 |- *. intros p Ip. constructor; [cbn; rewrite Ek; now apply H1|now apply S3].
  - destruct (Removew eqk gtk im WS fr hd ps h l me k own Bo F Lme Own) as (A & B & h' & me' & -> & Rp & L' & H).
    destruct (remove_parts_pos eqk gtk lt SW any Eq' Gt' k A B (G _) eq_refl S Rp) as [H1 H2].
    assert (Keep : Forall (fun p => lt k (fst p) = true) (kvs B) -> has lt k (kvs (A ++ B)) = false /\ remove lt k (kvs (A ++ B)) = kvs (A ++ B)).
    { intros H3. rewrite kvs_app. split; [exact (pos_has lt k (kvs A) [] (kvs B) H1 ltac:(constructor) H3)|exact (pos_remove lt k (kvs A) [] (kvs B) H1 ltac:(constructor) H3)]. }
    destruct B as [|c B].
    { destruct (Keep ltac:(constructor)) as [K1 K2]. destruct H as (E & B' & F' & Le). exists (A ++ []), h', me'. rewrite E, K1, K2. auto 8. }
    destruct (eqk (ck c) k) eqn:Ek.
    2:{ destruct (Keep H2) as [K1 K2]. destruct H as (E & B' & F' & Le). exists (A ++ c :: B), h', me'. rewrite E, K1, K2. auto 8. }
    destruct H as (E & B' & F' & Le). destruct H2 as [H2 H3]. exists (A ++ B), h', me'. change (c :: B) with ([c] ++ B). rewrite !kvs_app in *.
    rewrite (pos_has lt k _ _ _ H1 H2 H3), (pos_remove lt k _ _ _ H1 H2 H3), E. cbn [kvs map] in S |- *. split; auto. split; auto. split; [|auto].
    apply SS_app_inv in S as (S1 & S2 & S3). inversion S2; subst. apply SS_app; auto. eapply Forall_impl; [|exact S3]. intros p Fp. now inversion Fp.
  - destruct (Clearw fr hd ps h me Bo Lme) as (h' & me' & E & B' & L' & Le). exists [], h', me'. rewrite E. split; auto. split; auto. split; [constructor|]. split; auto. split; auto. split; auto.
    split; [destruct own; [auto|apply F]|]. intros c [].
  - exists ps, h, me. cbn. auto 8.
  - exists ps, h, me. cbn. auto 8.
Qed.
End Weak.

(** *** Several lists *)
Section World.
Context {K V : Type}.
Notation heap := (list (slnode K V)).
Implicit Types (h : heap) (l : sklist) (ps : list (@cell K V)).

Definition none : nat -> option (slnode K V) := fun _ => None.
(** The nodes not in zs. *)
Definition except (zs : list nat) h (a : nat) : option (slnode K V) := if existsb (Nat.eqb a) zs then None else nth_error h a.
Lemma except_in zs h a : In a zs -> except zs h a = None.
Proof. intros I. unfold except. assert (existsb (Nat.eqb a) zs = true) as -> by (apply existsb_exists; exists a; split; auto; apply Nat.eqb_refl). reflexivity. Qed.
Lemma except_out zs h a : ~ In a zs -> except zs h a = nth_error h a.
Proof. intros I. unfold except. destruct (existsb (Nat.eqb a) zs) eqn:E; auto. apply existsb_exists in E as (b & Ib & Eb). apply Nat.eqb_eq in Eb. subst b. contradiction. Qed.
Lemma body_except hd ps h : body none hd ps h -> body (except (hd :: addrs ps) h) hd ps h.
Proof.
  intros []. constructor; auto.
  - intros a n E. destruct (in_dec Nat.eq_dec a (hd :: addrs ps)) as [I|I]; [rewrite except_in in E by auto; discriminate|]. now rewrite except_out in E.
  - intros a I. now apply except_in.
Qed.
Lemma body_none fr hd ps h : body fr hd ps h -> body none hd ps h.
Proof. intros []. constructor; auto. intros a n E. discriminate. Qed.
Lemma body_frame hd ps h h' : body none hd ps h -> (forall a, In a (hd :: addrs ps) -> nth_error h' a = nth_error h a) -> body none hd ps h'.
Proof.
  intros [] H. constructor; auto.
  - intros a n E. discriminate.
  - destruct b_hd0 as (k & v & E). exists k, v. unfold nd in *. rewrite H by now left. exact E.
  - rewrite Forall_forall in *. intros c I. specialize (b_cells0 c I). unfold cellok, nd in *. rewrite H; auto. right. now apply in_map.
  - intros i Li. apply (chain_frame h); auto. intros x I. unfold nx. rewrite H; auto. destruct I as [<-|I]; [now left|]. right. now apply addrs_tall_in in I.
Qed.

Record lst := mkLst { l_hd : nat; l_ps : list (@cell K V); l_own : nat; l_im : @slimpl K V }.
Definition zone (x : lst) : list nat := l_hd x :: addrs (l_ps x).
Definition shows (h : heap) (x : lst) (m : (K -> K -> bool) * list (K * V)) : Prop :=
  body none (l_hd x) (l_ps x) h /\ kvs (l_ps x) = snd m /\ ksorted (fst m) (snd m) /\ wkind (l_im x) (fst m).
Definition sees (h : heap) (L : list lst) (i : nat) (v : yvar K V) (u : view) : Prop :=
  match v_map u with
  | Some n => exists x, nth_error L n = Some x /\ y_impl v = Some (l_own x, l_im x) /\ loose (l_hd x) (y_sl v) /\ (v_orig u = true -> i = l_own x) /\ sl_len (y_sl v) = v_len u
  | None => y_impl v = None /\ sl_len (y_sl v) = 0 /\ v_len u = 0 /\ v_orig u = false /\
      exists z n, sl_head (y_sl v) = Some z /\ nth_error h z = Some n /\ n_next n = [] /\ forall k x, nth_error L k = Some x -> ~ In z (zone x)
  end.
Record Inv (w : yvars K V) (s : @views K V) (L : list lst) : Prop := mkInv {
  i_maps : Forall2 (shows (fst w)) L (fst s);
  i_apart : forall n n' x x' a, nth_error L n = Some x -> nth_error L n' = Some x' -> In a (zone x) -> In a (zone x') -> n = n';
  i_len : length (snd w) = length (snd s);
  i_own : forall n x, nth_error L n = Some x -> exists v u, nth_error (snd w) (l_own x) = Some v /\ fits (l_hd x) (l_ps x) (y_sl v) /\ nth_error (snd s) (l_own x) = Some u /\ v_map u = Some n /\ v_orig u = true;
  i_view : forall i v u, nth_error (snd w) i = Some v -> nth_error (snd s) i = Some u -> sees (fst w) L i v u }.

Lemma F2_nth {A B} (R : A -> B -> Prop) a b : Forall2 R a b -> forall n x, nth_error a n = Some x -> exists y, nth_error b n = Some y /\ R x y.
Proof. induction 1; intros [|n] z E; cbn in *; try discriminate; [injection E as <-; eauto|auto]. Qed.
Lemma F2_len {A B} (R : A -> B -> Prop) a b : Forall2 R a b -> length a = length b.
Proof. induction 1; cbn; auto. Qed.
Lemma F2_upd {A B} (R Q : A -> B -> Prop) a b n x y : Forall2 R a b -> (forall k u v, k <> n -> nth_error a k = Some u -> nth_error b k = Some v -> R u v -> Q u v) -> Q x y -> Forall2 Q (upd n x a) (upd n y b).
Proof.
  intros H. revert n. induction H as [|u v a b H1 H2 IH]; intros n HQ Hxy; [destruct n; constructor|]. destruct n as [|n]; cbn.
  - constructor; auto. clear IH. assert (G : forall k u v, nth_error a k = Some u -> nth_error b k = Some v -> R u v -> Q u v) by (intros k p q E1 E2; apply (HQ (S k)); auto).
    clear HQ. induction H2; constructor; [apply (G O); auto|apply IHForall2; intros k; apply (G (S k))].
  - constructor; [apply (HQ O); auto|]. apply IH; auto. intros k p q NE E1 E2. apply (HQ (S k)); auto.
Qed.
Lemma F2_imp_in {A B} (R Q : A -> B -> Prop) a b : (forall x y, In x a -> R x y -> Q x y) -> Forall2 R a b -> Forall2 Q a b.
Proof. intros H F. induction F as [|x y a b H1 H2 IH]; constructor; [apply H; auto; now left|apply IH; intros p q I; apply H; now right]. Qed.
Lemma F2_nth' {A B} (R : A -> B -> Prop) a b : Forall2 R a b -> forall n y, nth_error b n = Some y -> exists x, nth_error a n = Some x /\ R x y.
Proof. induction 1; intros [|n] z E; cbn in *; try discriminate; [injection E as <-; eauto|auto]. Qed.
Lemma nth_upd_inv {A} n (x : A) a k y : nth_error (upd n x a) k = Some y -> (k = n /\ y = x /\ (n < length a)%nat) \/ (k <> n /\ nth_error a k = Some y).
Proof.
  intros E. destruct (Nat.eq_dec k n) as [->|NE]; [left|right; split; auto; now rewrite nth_error_upd_ne in E by auto].
  assert (L : (n < length a)%nat) by (rewrite <- (upd_length n x a); apply nth_error_Some; congruence). rewrite nth_error_upd_eq in E by auto. injection E as <-. auto.
Qed.
Lemma nth_snoc_inv {A} (a : list A) x k y : nth_error (a ++ [x]) k = Some y -> (k = length a /\ y = x) \/ ((k < length a)%nat /\ nth_error a k = Some y).
Proof.
  intros E. destruct (Nat.lt_ge_cases k (length a)) as [L|L]; [right; split; auto; now rewrite nth_error_app1 in E by auto|left].
  rewrite nth_error_app2 in E by auto. destruct (k - length a)%nat as [|q] eqn:Eq; [|destruct q; discriminate]. cbn in E. injection E as <-. split; [lia|auto].
Qed.
Lemma nth_snoc_old {A} (a : list A) x k y : nth_error a k = Some y -> nth_error (a ++ [x]) k = Some y.
Proof. intros E. rewrite nth_error_app1; auto. apply nth_error_Some. congruence. Qed.
Lemma nth_snoc_new {A} (a : list A) x : nth_error (a ++ [x]) (length a) = Some x.
Proof. rewrite nth_error_app2, Nat.sub_diag by lia. reflexivity. Qed.

Section Steps.
Context {St : Type}.
Variables (zk : K) (zv : V) (ltb eqb : K -> K -> bool).
Notation step := (y_step (St := St) zk zv ltb eqb).
Lemma choose_wkind k : lawful (V := V) (St := St) ltb eqb (YNew k) -> wkind (choose (V := V) ltb eqb k) (ylt ltb k).
Proof.
  intros H. destruct k as [|cmp]; cbn in *.
  - destruct (kind_spec (V := V) (implOrdered ltb eqb) ltb) as (e & g & _ & SW & _ & _); [left; eauto|]. exists eqb, (fun a b => ltb b a). split; [apply ordered_spec|]. split; [apply ordered_wspec|].
    destruct H as [SW' E]. auto.
  - pose proof (three_way_lt cmp H) as SW. exists (fun a b => cmp a b =? 0), (fun a b => 0 <? cmp a b). split; [apply func_spec|]. split; [apply func_wspec|]. split; auto. split.
    + intros a b. unfold eqv. pose proof (tw_antisym _ H a b). lia.
    + intros a b. pose proof (tw_antisym _ H a b). lia.
Qed.
Lemma old_zone w s L n x a : Inv w s L -> nth_error L n = Some x -> In a (zone x) -> (a < length (fst w))%nat.
Proof.
  intros I E Ia. destruct (F2_nth _ _ _ (i_maps _ _ _ I) n x E) as (m & _ & B & _). destruct Ia as [<-|Ia].
  - destruct (b_hd _ _ _ _ B) as (k & v & Eh). now apply nd_lt in Eh.
  - apply in_map_iff in Ia as (c & <- & Ic). pose proof (body_cell _ _ _ _ _ B Ic) as Ec. now apply nd_lt in Ec.
Qed.
(** A node is allocated that belongs to no list. *)
Lemma shows_grow h n x m : (forall a, In a (zone x) -> (a < length h)%nat) -> shows h x m -> shows (h ++ [n]) x m.
Proof. intros Z (B & R). split; auto. eapply body_frame; eauto. intros a I. apply nth_error_app1. now apply Z. Qed.

Lemma step_new k w s L : lawful (V := V) (St := St) ltb eqb (YNew k) -> Inv w s L -> fst (step (YNew k) w) = fst (view_spec (St := St) ltb (YNew k) s) /\ exists L', Inv (snd (step (YNew k) w)) (snd (view_spec (St := St) ltb (YNew k) s)) L'.
Proof.
  intros Law I. unfold y_step, init. rewrite bind_pnew. cbn [hmod fst snd omap view_spec]. split; auto. destruct w as [h vs], s as [ms us]. cbn [fst snd] in *.
  set (x := mkLst (length h) [] (length vs) (choose ltb eqb k)).
  assert (Bx : body none (length h) [] (h ++ [mkSLNode zk zv (repeat None skipListMaxLevel)]) /\ fits (length h) (@nil (@cell K V)) (mkSL 1 0 (Some (length h)) (repeat None skipListMaxLevel))).
  { destruct (init_ok zk zv h (mkSL 0 0 None [])) as ([h1 l1] & E & R). unfold init in E. rewrite bind_pnew in E. cbn in E. injection E as <- <-. destruct (rep_body _ _ _ _ _ R) as [B F]. split; auto. now apply body_none in B. }
  destruct Bx as [Bx Fx].
  assert (Oz : forall n y a, nth_error L n = Some y -> In a (zone y) -> (a < length h)%nat) by (intros n y a E Ia; exact (old_zone _ _ _ n y a I E Ia)).
  exists (L ++ [x]). pose proof (F2_len _ _ _ (i_maps _ _ _ I)) as Ln. pose proof (i_len _ _ _ I) as Lv. cbn [fst snd] in *. constructor; cbn [fst snd].
  - apply Forall2_app.
    + eapply F2_imp_in; [|exact (i_maps _ _ _ I)]. cbn [fst]. intros y m Iy Sy. apply In_nth_error in Iy as (n & En). apply shows_grow; auto. intros a Ia. eapply Oz; eauto.
    + constructor; [|constructor]. split; [exact Bx|]. split; [reflexivity|]. split; [constructor|exact (choose_wkind k Law)].
  - intros n n' y y' a E E' Ia Ia'. apply nth_snoc_inv in E as [[-> ->]|[Lt E]], E' as [[-> ->]|[Lt' E']]; auto.
    + destruct Ia as [<-|[]]. pose proof (Oz _ _ _ E' Ia'). cbn in H. lia.
    + destruct Ia' as [<-|[]]. pose proof (Oz _ _ _ E Ia). cbn in H. lia.
    + exact (i_apart _ _ _ I n n' y y' a E E' Ia Ia').
  - rewrite !app_length. cbn. lia.
  - intros n y E. apply nth_snoc_inv in E as [[-> ->]|[Lt E]].
    + eexists _, _. cbn [l_own x]. split; [apply nth_snoc_new|]. split; [exact Fx|]. split; [rewrite Lv; apply nth_snoc_new|]. cbn. split; [now rewrite Ln|auto].
    + destruct (i_own _ _ _ I n y E) as (v & u & E1 & F & E2 & M & O). exists v, u. split; [now apply nth_snoc_old|]. split; auto. split; [now apply nth_snoc_old|auto].
  - intros i v u E1 E2. apply nth_snoc_inv in E1 as [[-> ->]|[Lt E1]], E2 as [[Ei ->]|[Lt' E2]]; try lia.
    + unfold sees. cbn [v_map]. exists x. rewrite <- Ln. split; [apply nth_snoc_new|]. cbn. split; auto. split; [apply Fx|auto].
    + pose proof (i_view _ _ _ I i v u E1 E2) as Sv. unfold sees in *. cbn [fst] in *. destruct (v_map u) as [n|].
      * destruct Sv as (y & Ey & R). exists y. split; [now apply nth_snoc_old|auto].
      * destruct Sv as (S1 & S2 & S3 & S4 & z & nd0 & Hz & Nz & Ez & Oz'). do 4 (split; auto). exists z, nd0. split; auto. split; [now apply nth_snoc_old|]. split; auto.
        intros q y E. apply nth_snoc_inv in E as [[-> ->]|[_ E]]; [|eapply Oz'; eauto]. intros [Eq|[]]. cbn in Eq. apply Proof_Nodes.nth_lt in Nz. lia.
Qed.

(** A variable that is not an original gets a new value. *)
Lemma sees_copy h L i j v u : sees h L j v u -> sees h L i v (mkView (v_map u) false (v_len u)).
Proof.
  unfold sees. cbn. destruct (v_map u) as [n|].
  - intros (x & E & R1 & R2 & R3 & R4). exists x. do 3 (split; auto). split; [discriminate|auto].
  - intros (S1 & S2 & S3 & S4 & R). auto.
Qed.
Lemma len_none w s L i : Inv w s L -> nth_error (snd w) i = None <-> nth_error (snd s) i = None.
Proof. intros I. pose proof (i_len _ _ _ I) as E. rewrite !nth_error_None, E. tauto. Qed.
Lemma step_zero w s L : Inv w s L -> fst (step YZero w) = fst (view_spec (St := St) ltb YZero s) /\ exists L', Inv (snd (step YZero w)) (snd (view_spec (St := St) ltb YZero s)) L'.
Proof.
  intros I. cbn [y_step view_spec fst snd]. split; auto. destruct w as [h vs], s as [ms us]. cbn [fst snd].
  assert (Oz : forall n y a, nth_error L n = Some y -> In a (zone y) -> (a < length h)%nat) by (intros n y a E Ia; exact (old_zone _ _ _ n y a I E Ia)).
  pose proof (i_len _ _ _ I) as Lv. cbn [fst snd] in Lv. exists L. constructor; cbn [fst snd].
  - eapply F2_imp_in; [|exact (i_maps _ _ _ I)]. cbn [fst]. intros y m Iy Sy. apply In_nth_error in Iy as (n & En). apply shows_grow; auto. intros a Ia. eapply Oz; eauto.
  - exact (i_apart _ _ _ I).
  - rewrite !app_length. cbn. lia.
  - intros n y E. destruct (i_own _ _ _ I n y E) as (v & u & E1 & F & E2 & M & O). exists v, u. split; [now apply nth_snoc_old|]. split; auto. split; [now apply nth_snoc_old|auto].
  - intros i v u E1 E2. apply nth_snoc_inv in E1 as [[-> ->]|[Lt E1]], E2 as [[Ei ->]|[Lt' E2]]; try lia.
    + unfold sees. cbn. do 4 (split; [reflexivity|]). exists (length h), (mkSLNode zk zv []). split; auto. split; [apply nth_snoc_new|]. split; auto. intros q y E Ia. specialize (Oz _ _ _ E Ia). lia.
    + pose proof (i_view _ _ _ I i v u E1 E2) as Sv. unfold sees in *. cbn [fst] in *. destruct (v_map u) as [n|]; auto.
      destruct Sv as (S1 & S2 & S3 & S4 & z & nd0 & Hz & Nz & Ez & Oz'). do 4 (split; auto). exists z, nd0. split; auto. split; [now apply nth_snoc_old|]. auto.
Qed.
Lemma step_copy i w s L : Inv w s L -> fst (step (YCopy i) w) = fst (view_spec (St := St) ltb (YCopy i) s) /\ exists L', Inv (snd (step (YCopy i) w)) (snd (view_spec (St := St) ltb (YCopy i) s)) L'.
Proof.
  intros I. cbn [y_step view_spec]. destruct (nth_error (snd w) i) as [v|] eqn:Ev.
  2:{ apply (len_none _ _ _ i I) in Ev. rewrite Ev. cbn. split; auto. eauto. }
  destruct (nth_error (snd s) i) as [u|] eqn:Eu; [|apply (len_none _ _ _ i I) in Eu; congruence]. cbn [fst snd]. split; auto. exists L. pose proof (i_len _ _ _ I) as Lv. constructor; cbn [fst snd].
  - exact (i_maps _ _ _ I).
  - exact (i_apart _ _ _ I).
  - rewrite !app_length. cbn. lia.
  - intros n y E. destruct (i_own _ _ _ I n y E) as (v' & u' & E1 & F & E2 & M & O). exists v', u'. split; [now apply nth_snoc_old|]. split; auto. split; [now apply nth_snoc_old|auto].
  - intros k v' u' E1 E2. apply nth_snoc_inv in E1 as [[-> ->]|[Lt E1]], E2 as [[Ei ->]|[Lt' E2]]; try lia.
    + eapply sees_copy. exact (i_view _ _ _ I i v u Ev Eu).
    + exact (i_view _ _ _ I k v' u' E1 E2).
Qed.
Lemma step_assign i j w s L : polite1 (YAssign (K := K) (V := V) (St := St) i j) s -> Inv w s L -> fst (step (YAssign i j) w) = fst (view_spec (St := St) ltb (YAssign i j) s) /\ exists L', Inv (snd (step (YAssign i j) w)) (snd (view_spec (St := St) ltb (YAssign i j) s)) L'.
Proof.
  intros Pol I. cbn [y_step view_spec]. destruct (nth_error (snd w) i) as [vi|] eqn:Ei.
  2:{ apply (len_none _ _ _ i I) in Ei. rewrite Ei. cbn. split; auto. eauto. }
  destruct (nth_error (snd s) i) as [ui|] eqn:Eui; [|apply (len_none _ _ _ i I) in Eui; congruence]. cbn in Pol. specialize (Pol ui Eui).
  destruct (nth_error (snd w) j) as [v|] eqn:Ev.
  2:{ apply (len_none _ _ _ j I) in Ev. rewrite Ev. cbn. split; auto. eauto. }
  destruct (nth_error (snd s) j) as [u|] eqn:Eu; [|apply (len_none _ _ _ j I) in Eu; congruence].
  cbn [fst snd]. split; auto. exists L. constructor; cbn [fst snd].
  - exact (i_maps _ _ _ I).
  - exact (i_apart _ _ _ I).
  - rewrite !upd_length. exact (i_len _ _ _ I).
  - intros n y E. destruct (i_own _ _ _ I n y E) as (v' & u' & E1 & F & E2 & M & O). assert (l_own y <> i) by congruence.
    exists v', u'. rewrite !nth_error_upd_ne by auto. auto.
  - intros k v' u' E1 E2. apply nth_upd_inv in E1 as [(-> & -> & _)|(NE & E1)], E2 as [(E & -> & _)|(NE' & E2)]; try congruence.
    + eapply sees_copy. exact (i_view _ _ _ I j v u Ev Eu).
    + exact (i_view _ _ _ I k v' u' E1 E2).
Qed.
Lemma zero_call (o : mop K V St) h sl z n : sl_len sl = 0 -> sl_head sl = Some z -> nth_error h z = Some n -> n_next n = [] ->
  exists sl', map_step nil_impl o (h, sl) = (zero_answer o, (h, sl')) /\ sl_len sl' = 0 /\ sl_head sl' = Some z.
Proof.
  intros Le Hz Nz Ez. assert (N0 : forall l, ld_next (K := K) (V := V) (Some z) 0 (h, l) = (Panic, (h, l))).
  { intros l. unfold ld_next. rewrite (bind_eq _ _ _ _ _ (Proof_Nodes.pload_ok h l z n Nz)). rewrite Ez. reflexivity. }
  destruct o; cbn [map_step zero_answer]; unfold show; try (exists sl; split; [reflexivity|auto]).
  - exists (set_sl_len 0 (set_sl_level 1 sl)). unfold Clear. rewrite bind_hget, Hz, (bind_eq _ _ _ _ _ (Proof_Nodes.pload_ok h sl z n Nz)), Ez. cbn. auto.
  - exists sl. cbn. rewrite Le. auto.
  - exists sl. cbn. rewrite Le. auto.
  - exists sl. split; auto. unfold walk, Iterate. rewrite bind_fuel. unfold bind, hget. cbn [fst snd]. rewrite Hz, N0. reflexivity.
  - exists sl. split; auto. unfold ForEach. rewrite bind_fuel, bind_hget, Hz. unfold bind. rewrite N0. reflexivity.
  - exists sl. split; auto. unfold ForEachIf. rewrite bind_fuel, bind_hget, Hz. unfold bind. rewrite N0. reflexivity.
  - exists sl. split; auto. unfold ForEachMutable. rewrite bind_fuel, bind_hget, Hz. unfold bind. rewrite N0. reflexivity.
  - exists sl. split; auto. unfold ForEachMutableIf. rewrite bind_fuel, bind_hget, Hz. unfold bind. rewrite N0. reflexivity.
Qed.
Lemma step_call i (o : mop K V St) w s L : polite1 (YCall i o) s -> Inv w s L -> fst (step (YCall i o) w) = fst (view_spec ltb (YCall i o) s) /\ exists L', Inv (snd (step (YCall i o) w)) (snd (view_spec ltb (YCall i o) s)) L'.
Proof.
  intros Pol I. cbn [y_step view_spec]. destruct (nth_error (snd w) i) as [v|] eqn:Ev.
  2:{ apply (len_none _ _ _ i I) in Ev. rewrite Ev. cbn. split; auto. eauto. }
  destruct (nth_error (snd s) i) as [u|] eqn:Eu; [|apply (len_none _ _ _ i I) in Eu; congruence]. pose proof (i_view _ _ _ I i v u Ev Eu) as Sv.
  unfold sees in Sv. destruct (v_map u) as [n|] eqn:Em.
  - destruct Sv as (x & Ex & Im & Lme & Or & Le). destruct (F2_nth _ _ _ (i_maps _ _ _ I) n x Ex) as ([lt m] & Enm & B & Ekv & S & Wk). cbn [fst snd] in *. rewrite Enm.
    destruct (i_own _ _ _ I n x Ex) as (vo & uo & Eo & F & Euo & Mo & Oo). unfold impl_of. rewrite Im, Eo.
    assert (Own : v_orig u = true -> v = vo) by (intros O; specialize (Or O); subst i; congruence).
    destruct (core (l_im x) lt (except (zone x) (fst w)) (l_hd x) (l_ps x) (fst w) (y_sl vo) (y_sl v) (v_orig u) o Wk (body_except _ _ _ B) F Lme) as (ps' & h' & me' & E & Ek & S' & B' & L' & F' & Ln').
    { intros O. now rewrite (Own O). }
    { intros O. destruct o; cbn; auto. cbn in Pol. rewrite Ekv. destruct (Pol u n lt m Eu Em Enm) as [H|H]; [congruence|exact H]. }
    { now rewrite Ekv. }
    rewrite E. rewrite Ekv in *. destruct (map_spec lt o m) as [r m'] eqn:Ems. cbn [fst snd]. split.
    { unfold view_answer. rewrite Ems, Le. destruct o; reflexivity. }
    set (x' := mkLst (l_hd x) ps' (l_own x) (l_im x)). exists (upd n x' L).
    pose proof (b_keeps _ _ _ _ B') as Kp. pose proof (b_above _ _ _ _ B') as Ab.
    assert (Zx' : forall a, In a (zone x') -> In a (zone x) \/ (length (fst w) <= a)%nat).
    { intros a Ia. specialize (Ab a Ia). destruct (in_dec Nat.eq_dec a (zone x)) as [Y|N]; auto. rewrite except_out in Ab by auto. right. now apply nth_error_None in Ab. }
    assert (Out : forall a nd0, ~ In a (zone x) -> nth_error (fst w) a = Some nd0 -> nth_error h' a = Some nd0) by (intros a nd0 N E0; apply Kp; now rewrite except_out).
    assert (Hn : (n < length L)%nat) by (apply nth_error_Some; congruence).
    constructor; cbn [fst snd].
    + apply (F2_upd (shows (fst w))).
      * exact (i_maps _ _ _ I).
      * intros k y my NE Ey Emy (By & R). split; auto. eapply body_frame; eauto. intros a Ia. pose proof (old_zone _ _ _ k y a I Ey Ia) as La.
        destruct (nth_error (fst w) a) as [nd0|] eqn:Ea; [|apply nth_error_None in Ea; lia]. apply Out; auto. intros Ix. apply NE. exact (i_apart _ _ _ I k n y x a Ey Ex Ia Ix).
      * cbn [snd] in Ek. rewrite Ek in S'. split; [now apply body_none in B'|]. split; [exact Ek|]. split; [exact S'|exact Wk].
    + intros p q y y' a E1 E2 Ia Ia'. apply nth_upd_inv in E1 as [(-> & -> & _)|(NE & E1)], E2 as [(-> & -> & _)|(NE' & E2)]; auto.
      * destruct (Zx' a Ia) as [Y|Y]; [exact (i_apart _ _ _ I n q x y' a Ex E2 Y Ia')|]. pose proof (old_zone _ _ _ q y' a I E2 Ia'). lia.
      * destruct (Zx' a Ia') as [Y|Y]; [exact (i_apart _ _ _ I p n y x a E1 Ex Ia Y)|]. pose proof (old_zone _ _ _ p y a I E1 Ia). lia.
      * exact (i_apart _ _ _ I p q y y' a E1 E2 Ia Ia').
    + rewrite !upd_length. exact (i_len _ _ _ I).
    + assert (Hi : (i < length (snd w))%nat) by (apply nth_error_Some; congruence). assert (Hi' : (i < length (snd s))%nat) by (apply nth_error_Some; congruence).
      intros k y Ey. apply nth_upd_inv in Ey as [(-> & -> & _)|(NE & Ey)].
      * cbn [l_own l_hd l_ps x']. destruct (v_orig u) eqn:Ou.
        -- rewrite <- (Or eq_refl). rewrite !nth_error_upd_eq by auto. eexists _, _. split; [reflexivity|]. split; [exact F'|]. split; [reflexivity|]. cbn. split; auto.
        -- assert (l_own x <> i) by congruence. rewrite !nth_error_upd_ne by auto. exists vo, uo. auto.
      * destruct (i_own _ _ _ I k y Ey) as (v2 & u2 & E1 & F2 & E2 & M2 & O2). assert (l_own y <> i) by congruence. rewrite !nth_error_upd_ne by auto. exists v2, u2. auto.
    + intros k v2 u2 E1 E2. apply nth_upd_inv in E1 as [(-> & -> & _)|(NE & E1)], E2 as [(E0 & -> & _)|(NE' & E2)]; try congruence.
      * unfold sees. cbn [v_map]. exists x'. rewrite nth_error_upd_eq by auto. cbn. split; auto. split; auto. split; auto. split; auto. now rewrite Ln', Le.
      * pose proof (i_view _ _ _ I k v2 u2 E1 E2) as Sv. unfold sees in *. destruct (v_map u2) as [n2|].
        -- destruct Sv as (y & Ey & R). destruct (Nat.eq_dec n2 n) as [->|NE2].
           ++ exists x'. rewrite nth_error_upd_eq by auto. rewrite Ex in Ey. injection Ey as <-. auto.
           ++ exists y. rewrite nth_error_upd_ne by auto. auto.
        -- destruct Sv as (S1 & S2 & S3 & S4 & z & nd0 & Hz & Nz & Ez & Oz'). do 4 (split; auto). exists z, nd0. split; auto. split; [apply Out; auto; now apply (Oz' n)|]. split; auto.
           intros q y Ey. apply nth_upd_inv in Ey as [(-> & -> & _)|(_ & Ey)]; [|eapply Oz'; eauto]. intros Iz. destruct (Zx' z Iz) as [Y|Y]; [exact (Oz' n x Ex Y)|].
           apply Proof_Nodes.nth_lt in Nz. lia.
  - destruct Sv as (S1 & S2 & S3 & S4 & z & nd0 & Hz & Nz & Ez & Oz'). unfold impl_of. rewrite S1. destruct (zero_call o (fst w) (y_sl v) z nd0 S2 Hz Nz Ez) as (sl' & E & Le & Hd). rewrite E. cbn [fst snd].
    split; auto. exists L. assert (Hi : (i < length (snd w))%nat) by (apply nth_error_Some; congruence). constructor; cbn [fst snd].
    + exact (i_maps _ _ _ I).
    + exact (i_apart _ _ _ I).
    + rewrite upd_length. exact (i_len _ _ _ I).
    + intros k y Ey. destruct (i_own _ _ _ I k y Ey) as (v2 & u2 & E1 & F2 & E2 & M2 & O2). assert (l_own y <> i) by (intros Ei; rewrite Ei in E2; congruence). rewrite !nth_error_upd_ne by auto. exists v2, u2. auto.
    + intros k v2 u2 E1 E2. apply nth_upd_inv in E1 as [(-> & -> & _)|(NE & E1)].
      * assert (u2 = u) as -> by congruence. unfold sees. rewrite Em. cbn. do 4 (split; auto). exists z, nd0. auto.
      * exact (i_view _ _ _ I k v2 u2 E1 E2).
Qed.
Lemma step_inv (o : yop K V St) w s L : lawful ltb eqb o -> polite1 o s -> Inv w s L -> fst (step o w) = fst (view_spec ltb o s) /\ exists L', Inv (snd (step o w)) (snd (view_spec ltb o s)) L'.
Proof. destruct o; intros La Po I; [eapply step_new|eapply step_zero|eapply step_copy|eapply step_assign|eapply step_call]; eauto. Qed.
Lemma run_inv (ops : list (yop K V St)) : forall w s L, Forall (lawful ltb eqb) ops -> polite ltb ops s -> Inv w s L ->
  fst (run step ops w) = fst (run (view_spec ltb) ops s) /\ exists L', Inv (snd (run step ops w)) (snd (run (view_spec ltb) ops s)) L'.
Proof.
  induction ops as [|o ops IH]; intros w s L La Po I; [cbn; eauto|]. inversion La as [|? ? La1 La2]; subst. cbn [polite] in Po. destruct Po as [Po1 Po2].
  destruct (step_inv o w s L La1 Po1 I) as (E & L' & I'). cbn [run]. destruct (step o w) as [r1 w1]. destruct (view_spec ltb o s) as [r2 s1]. cbn [fst snd] in *. subst r2.
  destruct (IH w1 s1 L' La2 Po2 I') as (E2 & L2 & I2). destruct (run step ops w1). destruct (run (view_spec ltb) ops s1). cbn [fst snd] in *. split; [congruence|eauto].
Qed.
Lemma inv_start : Inv ([], []) ([], []) [].
Proof. constructor; cbn; auto; intros [|n]; intros *; intros E; discriminate. Qed.
End Steps.
End World.

Section Readers.
Context {K V St : Type}.
Section Len.
Variable lt : K -> K -> bool.
Hypothesis SW : strict_weak lt.
Lemma new_split k (m : list (K * V)) : has lt k m = false -> (length (filter (fun p => lt (fst p) k) m) + length (filter (fun p => lt k (fst p)) m) = length m)%nat.
Proof using SW.
  induction m as [|[a v] m IH]; cbn; auto. intros H. apply orb_false_iff in H as [E H]. specialize (IH H). unfold eqv in E.
  destruct (lt a k) eqn:E1, (lt k a) eqn:E2; cbn in *; try discriminate; try lia. pose proof (sw_trans _ SW _ _ _ E1 E2) as C. rewrite (sw_irrefl _ SW) in C. discriminate.
Qed.
Lemma not_has k (m : list (K * V)) : has lt k m = false -> filter (fun p => negb (eqv lt (fst p) k)) m = m.
Proof. induction m as [|p m IH]; cbn; auto. intros H. apply orb_false_iff in H as [E H]. rewrite E. cbn. now rewrite IH. Qed.
Lemma one_less k (m : list (K * V)) : ksorted lt m -> has lt k m = true -> S (length (filter (fun p => negb (eqv lt (fst p) k)) m)) = length m.
Proof using SW.
  induction 1 as [|p m S IH F]; cbn; [discriminate|]. destruct (eqv lt (fst p) k) eqn:E; cbn; [|intros H; now rewrite IH]. intros _. rewrite not_has; auto.
  clear IH S. induction F as [|q m Hq F IH]; auto. change (eqv lt (fst q) k || has lt k m = false). rewrite IH, orb_false_r. unfold eqv in *. apply andb_true_iff in E as [E1 E2]. apply negb_true_iff in E1, E2.
  destruct (lt (fst q) k) eqn:Q1; auto. cbn. destruct (lt k (fst q)) eqn:Q2; auto. exfalso. pose proof (sw_negtrans _ SW _ _ _ E1 Q2) as C. congruence.
Qed.
Lemma len_spec (o : mop K V St) m : ksorted lt m -> zlen (snd (map_spec lt o m)) = next_len lt o m (zlen m).
Proof using SW.
  intros S. unfold zlen. destruct o; cbn [map_spec snd next_len]; auto.
  - unfold insert. destruct (has lt k m) eqn:H; [unfold set_value; now rewrite map_length|]. rewrite app_length. cbn [length]. pose proof (new_split k m H). lia.
  - unfold remove. destruct (has lt k m) eqn:H; [pose proof (one_less k m S H); lia|now rewrite not_has].
  - unfold set_value. now rewrite map_length.
  - pose proof (map_st_fst cb m st) as E. destruct (map_st _ st m) as [m' st']. cbn in *. apply (f_equal (@length K)) in E. rewrite !map_length in E. lia.
  - pose proof (map_while_fst cb m st) as E. destruct (map_while _ st m) as [m' st']. cbn in *. apply (f_equal (@length K)) in E. rewrite !map_length in E. lia.
Qed.
End Len.

Variables ltb eqb : K -> K -> bool.
Record J (s : @views K V) (w : list ((K -> K -> bool) * list (K * V)) * list (option nat)) : Prop := mkJ {
  j_maps : fst w = fst s;
  j_vars : snd w = map v_map (snd s);
  j_sorted : forall n lt m, nth_error (fst s) n = Some (lt, m) -> strict_weak lt /\ ksorted lt m;
  j_one : forall i j u u', nth_error (snd s) i = Some u -> nth_error (snd s) j = Some u' -> v_orig u = true -> v_orig u' = true -> v_map u = v_map u' -> i = j;
  j_in : forall i u n, nth_error (snd s) i = Some u -> v_map u = Some n -> (n < length (fst s))%nat;
  j_len : forall i u n lt m, nth_error (snd s) i = Some u -> v_orig u = true -> v_map u = Some n -> nth_error (fst s) n = Some (lt, m) -> v_len u = zlen m }.
Lemma ylt_weak k : lawful (V := V) (St := St) ltb eqb (YNew k) -> strict_weak (ylt ltb k).
Proof. destruct k; cbn; [apply ord_sw|apply three_way_lt]. Qed.
Lemma map_upd {A B} (f : A -> B) i x l : map f (upd i x l) = upd i (f x) (map f l).
Proof. revert i. induction l as [|y l IH]; intros [|i]; cbn; auto. now rewrite IH. Qed.
Lemma upd_same {A} (l : list A) i x : nth_error l i = Some x -> upd i x l = l.
Proof. revert i. induction l as [|y l IH]; intros [|i]; cbn; auto; [now intros [= ->]|]. intros E. now rewrite IH. Qed.
Lemma J_new i b n s w u : J s w -> nth_error (snd s) i = Some u -> b = mkView (v_map u) false n -> J (fst s, snd s ++ [b]) (fst w, snd w ++ [v_map u]).
Proof.
  intros [] E ->. constructor; cbn [fst snd]; auto.
  - now rewrite map_app, <- j_vars0.
  - intros p q x y E1 E2 O1 O2 M. apply nth_snoc_inv in E1 as [[-> ->]|[_ E1]], E2 as [[-> ->]|[_ E2]]; try discriminate; eauto.
  - intros p x q E1 M. apply nth_snoc_inv in E1 as [[-> ->]|[_ E1]]; eauto.
  - intros p x q lt m E1 O M. apply nth_snoc_inv in E1 as [[-> ->]|[_ E1]]; [discriminate|eauto].
Qed.
Lemma read_step (o : yop K V St) s w : lawful ltb eqb o -> reading1 o s -> J s w ->
  polite1 o s /\ fst (view_spec ltb o s) = fst (alias_spec ltb o w) /\ J (snd (view_spec ltb o s)) (snd (alias_spec ltb o w)).
Proof.
  intros La Rd Jj. pose proof Jj as []. destruct s as [ms us], w as [ms' xs]. cbn [fst snd] in *. subst ms' xs. destruct o as [k| |i|i j|i o]; cbn [view_spec alias_spec polite1 fst snd].
  - split; auto. split; auto. constructor; cbn [fst snd].
    + reflexivity.
    + now rewrite map_app.
    + intros n lt m E. apply nth_snoc_inv in E as [[-> E]|[_ E]]; [|eauto]. injection E as -> ->. split; [now apply ylt_weak|constructor].
    + intros p q x y E1 E2 O1 O2 M. apply nth_snoc_inv in E1 as [[-> ->]|[_ E1]], E2 as [[-> ->]|[_ E2]]; eauto.
      * cbn in M. symmetry in M. apply (j_in0 _ _ _ E2) in M. lia.
      * cbn in M. apply (j_in0 _ _ _ E1) in M. lia.
    + intros p x q E1 M. rewrite app_length. cbn. apply nth_snoc_inv in E1 as [[-> ->]|[_ E1]]; [injection M as <-; lia|]. apply (j_in0 _ _ _ E1) in M. lia.
    + intros p x q lt m E1 O M E. apply nth_snoc_inv in E1 as [[-> ->]|[_ E1]].
      * injection M as <-. rewrite nth_snoc_new in E. injection E as <- <-. reflexivity.
      * pose proof (j_in0 _ _ _ E1 M). rewrite nth_error_app1 in E by auto. eauto.
  - split; auto. split; auto. constructor; cbn [fst snd]; auto.
    + now rewrite map_app.
    + intros p q x y E1 E2 O1 O2 M. apply nth_snoc_inv in E1 as [[-> ->]|[_ E1]], E2 as [[-> ->]|[_ E2]]; try discriminate; eauto.
    + intros p x q E1 M. apply nth_snoc_inv in E1 as [[-> ->]|[_ E1]]; [discriminate|eauto].
    + intros p x q lt m E1 O M. apply nth_snoc_inv in E1 as [[-> ->]|[_ E1]]; [discriminate|eauto].
  - split; auto. rewrite nth_error_map. destruct (nth_error us i) as [u|] eqn:E; cbn; [|auto]. split; auto. exact (J_new i _ (v_len u) (ms, us) (ms, map v_map us) u Jj E eq_refl).
  - split; [exact Rd|]. rewrite !nth_error_map. cbn in Rd. destruct (nth_error us i) as [ui|] eqn:Ei; cbn; [|auto]. destruct (nth_error us j) as [u|] eqn:E; cbn; [|auto]. split; auto.
    specialize (Rd ui eq_refl). constructor; cbn [fst snd]; auto.
    + now rewrite map_upd.
    + intros p q x y E1 E2 O1 O2 M. apply nth_upd_inv in E1 as [(-> & -> & _)|(_ & E1)], E2 as [(-> & -> & _)|(_ & E2)]; try discriminate; eauto.
    + intros p x q E1 M. apply nth_upd_inv in E1 as [(-> & -> & _)|(_ & E1)]; eauto.
    + intros p x q lt m E1 O M. apply nth_upd_inv in E1 as [(-> & -> & _)|(_ & E1)]; [discriminate|eauto].
  - rewrite nth_error_map. destruct (nth_error us i) as [u|] eqn:E; cbn [option_map].
    2:{ split; [|cbn; auto]. destruct o; auto. intros v0 n lt m C. discriminate. }
    destruct (v_map u) as [n|] eqn:M.
    2:{ split; [|cbn; auto]. destruct o; auto. intros v0 n lt m C. injection C as <-. congruence. }
    destruct (nth_error ms n) as [[lt m]|] eqn:En.
    2:{ split; [|cbn; auto]. destruct o; auto. intros v0 n' lt m C M' C'. injection C as <-. congruence. }
    destruct (j_sorted0 n lt m En) as [SW So]. pose proof (len_spec lt SW o m So) as Ln. pose proof (spec_sorted lt SW o m So) as So'.
    destruct (map_spec lt o m) as [r m'] eqn:Ems. cbn [fst snd] in *.
    assert (Or : match o with MInsert _ _ _ | MRemove _ | MClear | MLen | MIsEmpty => v_orig u = true | _ => True end).
    { destruct o; auto; cbn in Rd; destruct (Rd u E) as [X|X]; congruence. }
    split; [destruct o; auto; intros v0 n' lt' m'' C; injection C as <-; auto|]. split.
    { destruct o; auto; cbn in Ems; injection Ems as <- <-; rewrite (j_len0 _ _ _ _ _ E Or M En); auto. now destruct m. }
    constructor; cbn [fst snd].
    + reflexivity.
    + rewrite map_upd. cbn [v_map]. symmetry. apply upd_same. rewrite nth_error_map, E. cbn. now rewrite M.
    + intros q lt2 m2 E2. apply nth_upd_inv in E2 as [(-> & E2 & _)|(_ & E2)]; [injection E2 as -> ->; auto|eauto].
    + intros p q x y E1 E2 O1 O2 Mm. apply nth_upd_inv in E1 as [(-> & -> & _)|(_ & E1)], E2 as [(-> & -> & _)|(_ & E2)]; auto; cbn in *.
      * apply (j_one0 i q u y); auto. congruence.
      * apply (j_one0 p i x u); auto. congruence.
      * eauto.
    + intros p x q E1 Mm. rewrite upd_length. apply nth_upd_inv in E1 as [(-> & -> & _)|(_ & E1)]; [|eauto]. cbn in Mm. injection Mm as <-. apply Proof_Nodes.nth_lt in En. exact En.
    + intros p x q lt2 m2 E1 O Mm E2. apply nth_upd_inv in E1 as [(-> & -> & _)|(NE & E1)].
      * cbn in *. injection Mm as <-. rewrite nth_error_upd_eq in E2 by (now apply Proof_Nodes.nth_lt in En). injection E2 as <- <-. rewrite Ln. f_equal. eauto.
      * apply nth_upd_inv in E2 as [(-> & E2 & _)|(NE2 & E2)]; [|eauto]. injection E2 as <- <-. rewrite Ln, (j_len0 _ _ _ _ _ E1 O Mm En).
        destruct o; auto; exfalso; apply NE; apply (j_one0 p i x u); auto; congruence.
Qed.
Lemma read_run (ops : list (yop K V St)) : forall s w, Forall (lawful ltb eqb) ops -> reading ltb ops s -> J s w ->
  polite ltb ops s /\ fst (run (view_spec ltb) ops s) = fst (run (alias_spec ltb) ops w).
Proof.
  induction ops as [|o ops IH]; intros s w La Rd Jj; [cbn; auto|]. inversion La as [|? ? La1 La2]; subst. destruct Rd as [R1 R2].
  destruct (read_step o s w La1 R1 Jj) as (P1 & E & Jj'). destruct (IH _ _ La2 R2 Jj') as (P2 & E2). split; [split; auto|].
  cbn [run]. destruct (view_spec ltb o s) as [r1 s1]. destruct (alias_spec ltb o w) as [r2 w1]. cbn [fst snd] in *. subst r2.
  destruct (run (view_spec ltb) ops s1), (run (alias_spec ltb) ops w1). cbn [fst] in *. congruence.
Qed.
Lemma J_start : J ([], []) ([], []).
Proof. constructor; cbn; auto; intros [|n]; intros *; intros E; discriminate. Qed.
End Readers.
