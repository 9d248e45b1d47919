From Verif Require Import BaseLemmas Spec Trace Spec_List Spec_Map Nodes Spec_Reach Proof_Mem.
From Verif Require Proof_Nodes Model_SList Proof_SList Model_DList Proof_DList Model_SkipList Proof_SkipList Proof_Map.
Set Default Proof Using "Type".

Section Reach.
Context {N : Type}.
Variables (links : N -> list ptr) (h : list N) (roots : list ptr).
Lemma reach_inv (Q : nat -> Prop) : (forall a, In (Some a) roots -> Q a) ->
  (forall a n b, Q a -> nth_error h a = Some n -> In (Some b) (links n) -> Q b) -> forall a, reach links h roots a -> Q a.
Proof. intros Hr Hl a R. induction R; eauto. Qed.
End Reach.
Lemma values_of {N T} (value : N -> T) (h : list N) (l : list (nat * T)) : (forall a v, In (a, v) l -> option_map value (nth_error h a) = Some v) ->
  map (fun a => option_map value (nth_error h a)) (map fst l) = map Some (map snd l).
Proof. intros H. rewrite !map_map. apply map_ext_in. intros [a v] I. now apply H. Qed.

Section RS.
Import Model_SList Proof_SList.
Context {T : Type}.
Lemma chain_value h (l : list (nat * T)) : forall p, chain h p l -> forall a v, In (a, v) l -> option_map s_value (nth_error h a) = Some v.
Proof.
  induction l as [|[b w] l IH]; intros p C a v I; [destruct I|]. destruct C as (-> & q & E & C). destruct I as [[= -> ->]|I]; [now rewrite E|eauto].
Qed.
Lemma chain_reach h (l : list (nat * T)) roots : forall p, chain h p l -> (forall a, p = Some a -> reach slinks h roots a) -> forall a, In a (addrs l) -> reach slinks h roots a.
Proof.
  induction l as [|[b w] l IH]; intros p C Hp a I; [destruct I|]. destruct C as (-> & q & E & C). destruct I as [<-|I]; [auto|].
  apply (IH q C); auto. intros c ->. eapply reach_link; [apply Hp; reflexivity|exact E|now left].
Qed.
Lemma chain_closed h (l : list (nat * T)) : forall p, chain h p l -> (forall a, p = Some a -> In a (addrs l)) /\ forall a n b, In a (addrs l) -> nth_error h a = Some n -> In (Some b) (slinks n) -> In b (addrs l).
Proof.
  induction l as [|[c w] l IH]; intros p C; cbn in C.
  - subst p. split; [discriminate|]. intros a n b [].
  - destruct C as (-> & q & E & C). destruct (IH q C) as [H1 H2]. split; [intros a [= <-]; now left|].
    intros a n b [<-|I] En Il; [|right; eauto]. cbn [fst] in En. rewrite E in En. injection En as <-. destruct Il as [Il|[]]. cbn in Il. right. now apply H1.
Qed.
Lemma s_keeps fr (xs : list T) s : Rel fr xs s -> keeps_only slinks s_value (fst s) [s_head (snd s); s_tail (snd s)] [] xs.
Proof.
  intros (l & <- & (ND & _) & C & Et & _). exists (addrs l). split; [exact ND|]. split; [intros a _ []|]. split; [apply values_of; eauto using chain_value|].
  intros a. split.
  - intros R. left. destruct (chain_closed _ _ _ C) as [H1 H2]. revert a R. apply reach_inv; auto.
    intros a [Ha|[Ha|[]]]; [now apply H1|]. rewrite Et in Ha. unfold last_ptr in Ha. destruct (rev l) as [|[b v] r] eqn:E; [discriminate|]. injection Ha as ->.
    unfold addrs. apply in_map_iff. exists (a, v). split; auto. apply in_rev. rewrite E. now left.
  - intros [I|[]]. eapply chain_reach; eauto. intros b E. apply reach_root. now left.
Qed.
End RS.

Section RD.
Import Model_DList Proof_DList.
Context {T : Type}.
Lemma open_value h (l : list (nat * T)) : forall a, open h a l -> forall b v, In (b, v) l -> option_map d_value (nth_error h b) = Some v.
Proof.
  induction l as [|[c w] l IH]; intros a O b v I; [destruct I|]. destruct O as (_ & _ & E & O). destruct I as [[= -> ->]|I]; [exact E|eauto].
Qed.
Lemma open_reach h (l : list (nat * T)) roots : forall a, open h a l -> reach dlinks h roots a -> forall b, In b (addrs l) -> reach dlinks h roots b.
Proof.
  induction l as [|[c w] l IH]; intros a O R b I; [destruct I|]. destruct O as (E & _ & _ & O).
  assert (Rc : reach dlinks h roots c). { unfold nxt in E. destruct (nth_error h a) as [n|] eqn:En; [|discriminate]. eapply reach_link; [exact R|exact En|]. right. left. cbn in E. now injection E. }
  destruct I as [<-|I]; [exact Rc|eauto].
Qed.
Lemma open_closed h (l : list (nat * T)) : forall a, open h a l ->
  (forall b, In b (a :: addrs l) -> b <> lst a l -> exists c, nxt h b = Some (Some c) /\ In c (addrs l)) /\ (forall b, In b (addrs l) -> exists c, prv h b = Some (Some c) /\ In c (a :: addrs l)).
Proof.
  induction l as [|[c w] l IH]; intros a O.
  - split; [|intros b []]. intros b [<-|[]] N. cbn in N. contradiction.
  - destruct O as (E & P & _ & O). destruct (IH c O) as [H1 H2]. cbn [lst addrs map fst]. split.
    + intros b [<-|I] Nb; [exists c; split; auto; now left|]. destruct (H1 b I Nb) as (d & Ed & Id). exists d. split; auto. now right.
    + intros b [<-|I]; [exists a; split; auto; now left|]. destruct (H2 b I) as (d & Ed & Id). exists d. split; auto. now right.
Qed.
Lemma d_keeps fr (xs : list T) s : Rel fr xs s -> keeps_only dlinks d_value (fst s) [d_head (snd s)] [d_head (snd s)] xs.
Proof.
  intros (l & <- & _ & _ & R). destruct (d_head (snd s)) as [hd|] eqn:Eh.
  - destruct R as [(O & Nl & Pl & ND) _]. apply NoDup_cons_iff in ND as [Ni ND]. exists (addrs l). split; [exact ND|]. split; [intros a I [[= <-]|[]]; auto|]. split; [apply values_of; eauto using open_value|].
    destruct (open_closed _ _ _ O) as [H1 H2]. intros a. split.
    + intros R. assert (Q : In a (hd :: addrs l)). 2:{ destruct Q as [<-|Q]; [right; now left|now left]. }
      revert a R. apply reach_inv; [intros a [[= <-]|[]]; now left|]. intros a n b I En Il.
      assert (En' : nxt (fst s) a = Some (d_next n) /\ prv (fst s) a = Some (d_prev n)) by (unfold nxt, prv; rewrite En; auto). destruct En' as [En1 En2].
      destruct Il as [Il|[Il|[]]].
      * destruct I as [<-|I]; [|destruct (H2 a I) as (c & Ec & Ic); congruence]. rewrite Pl, Il in En2. injection En2 as <-. apply lst_in.
      * destruct (Nat.eq_dec a (lst hd l)) as [->|Na]; [rewrite Nl, Il in En1; injection En1 as <-; now left|].
        destruct (H1 a I Na) as (c & Ec & Ic). right. congruence.
    + assert (Rh : reach dlinks (fst s) [Some hd] hd) by (apply reach_root; now left). intros [I|[[= <-]|[]]]; [eapply open_reach; eauto|auto].
  - subst l. exists []. split; [constructor|]. split; [intros a []|]. split; [reflexivity|]. intros a. split; [|intros [[]|[[=]|[]]]].
    intros R. exfalso. revert a R. apply reach_inv; [intros a [[=]|[]]|]. intros a n b [].
Qed.
End RD.

Section RK.
Import Model_SkipList Proof_SkipList Proof_Map.
Context {K V : Type}.
Implicit Types (h : list (slnode K V)).
Lemma path_closed h i : forall (cs : list (cell (K := K) (V := V))) a, chain h i a cs -> forall x b, In x (a :: addrs cs) -> nx h x i = Some (Some b) -> In b (addrs cs).
Proof.
  induction cs as [|c cs IH]; intros a C x b I E.
  - destruct C as [_ C]. cbn in C. destruct I as [<-|[]]. congruence.
  - apply chain_cons in C as [E1 C]. destruct I as [<-|I]; [rewrite E1 in E; injection E as <-; now left|]. right. exact (IH _ C x b I E).
Qed.
Lemma link_reach h roots a i b : reach n_next h roots a -> nx h a i = Some (Some b) -> reach n_next h roots b.
Proof. intros R E. unfold nx in E. destruct (nth_error h a) as [n|] eqn:En; [|discriminate]. eapply reach_link; [exact R|exact En|]. eapply nth_error_In; eauto. Qed.
Lemma path_reach h roots : forall (cs : list (cell (K := K) (V := V))) a, path h 0 a cs -> reach n_next h roots a -> forall b, In b (addrs cs) -> reach n_next h roots b.
Proof.
  induction cs as [|c cs IH]; intros a C R b I; [destruct I|]. destruct C as [E C]. assert (Rc : reach n_next h roots (ca c)) by (eapply link_reach; eauto).
  destruct I as [<-|I]; [exact Rc|eauto].
Qed.
Lemma tall_in i (ps : list (cell (K := K) (V := V))) a : In a (addrs (tall i ps)) -> In a (addrs ps).
Proof. unfold addrs. rewrite !in_map_iff. intros (c & E & I). exists c. split; auto. apply filter_In in I. apply I. Qed.
Lemma cells_pairs h (ps : list (cell (K := K) (V := V))) : Forall (cellok h) ps -> map (fun a => option_map pair_of (nth_error h a)) (addrs ps) = map Some (kvs ps).
Proof.
  intros F. unfold addrs, kvs. rewrite !map_map. apply map_ext_in. intros c I. rewrite Forall_forall in F. specialize (F c I). unfold cellok, nd in F.
  destruct (nth_error h (ca c)); [|discriminate]. cbn in F. unfold pair_of. cbn. congruence.
Qed.
Lemma rep_keeps fr hd (ps : list (cell (K := K) (V := V))) s : rep fr hd ps s -> keeps_only n_next pair_of (fst s) [sl_head (snd s)] [sl_head (snd s)] (kvs ps).
Proof.
  intros R. rewrite (r_head _ _ _ _ R). pose proof (r_nodup _ _ _ _ R) as ND. apply NoDup_cons_iff in ND as [Ni ND].
  exists (addrs ps). split; [exact ND|]. split; [intros a I [[= <-]|[]]; auto|]. split; [apply cells_pairs, (r_cells _ _ _ _ R)|]. intros a. split.
  - intros Ra. assert (Q : In a (hd :: addrs ps)). 2:{ destruct Q as [<-|Q]; [right; now left|now left]. }
    revert a Ra. apply reach_inv; [intros a [[= <-]|[]]; now left|]. intros a n b I En Il. apply In_nth_error in Il as [i Ei].
    assert (En' : nx (fst s) a i = Some (Some b)) by (unfold nx; now rewrite En).
    assert (Hi : (i < skipListMaxLevel)%nat /\ In a (hd :: addrs (tall i ps))).
    { assert (Ei' : (i < length (n_next n))%nat) by (exact (Proof_Nodes.nth_lt (n_next n) i (Some b) Ei)). clear Ei. destruct I as [<-|I].
      - destruct (r_hd _ _ _ _ R) as (k & v & Eh). unfold nd in Eh. rewrite En in Eh. cbn [option_map] in Eh. assert (El := f_equal (fun x => match x with Some p => snd p | None => O end) Eh). cbn [snd] in El. split; [lia|now left].
      - unfold addrs in I. apply in_map_iff in I as (c & <- & I). pose proof (r_cells _ _ _ _ R) as F. rewrite Forall_forall in F. specialize (F c I). unfold cellok, nd in F. rewrite En in F. cbn [option_map] in F. injection F as _ _ El.
        pose proof (r_height _ _ _ _ R c I). pose proof (r_level _ _ _ _ R). split; [lia|]. right. apply in_map. apply filter_In. split; auto. apply Nat.ltb_lt. lia. }
    destruct Hi as [Hi Ia]. right. apply (tall_in i). eapply path_closed; [exact (r_chain _ _ _ _ R i Hi)|exact Ia|exact En'].
  - assert (Rh : reach n_next (fst s) [Some hd] hd) by (apply reach_root; now left). intros [I|[[= <-]|[]]]; [|auto].
    destruct s as [h l]. pose proof (rep_chain0 _ _ _ _ _ R) as [C _]. exact (path_reach _ _ _ _ C Rh a I).
Qed.
(** Clear writes to the head node only. *)
Lemma clear_others hd : forall todo i h (l : sklist) r h' l', sl_head l = Some hd -> clear_loop todo i (h, l) = (r, (h', l')) -> l' = l /\ forall a, a <> hd -> nth_error h' a = nth_error h a.
Proof.
  induction todo as [|todo IH]; intros i h l r h' l' Eh E; cbn [clear_loop] in E.
  - injection E as _ <- <-. auto.
  - rewrite bind_hget, Eh in E. unfold bind, st_next, pload, pmod, bind in E. cbn [fst snd] in E. destruct (nth_error h hd) as [n|] eqn:En; [|injection E as _ <- <-; auto].
    destruct (Nat.ltb i (length (n_next n))); [|injection E as _ <- <-; auto]. cbn [fst snd] in E. try rewrite En in E. apply IH in E as [-> H]; auto. split; auto.
    intros a Na. rewrite H by auto. apply nth_error_upd_ne. auto.
Qed.
Variables (impl : @slimpl K V) (lt : K -> K -> bool).
Hypothesis Hk : kind impl lt.
Notation Rel := (Rel lt).
(** Remove of an absent key leaves its predecessors in prevsCache; Clear does not
    touch them. *)
Lemma remove_clear fr (m : list (K * V)) s k p0 : Rel fr m s -> has lt k m = false -> In p0 m -> lt (fst p0) k = true ->
  let s1 := snd (Remove impl k s) in let s2 := snd (Clear s1) in
  forall p, In p m -> lt k (fst p) = true -> exists a, reach n_next (fst s2) (sl_head (snd s2) :: sl_prevs (snd s2)) a /\ option_map pair_of (nth_error (fst s2) a) = Some p.
Proof using Hk.
  destruct s as [h l]. intros (hd & ps & <- & R & S) Hn I0 L0 s1 s2 p Ip Lp. destruct (kind_spec _ _ Hk) as (eqk & gtk & SP & SW & Eq & Gt).
  destruct (sp_remove _ _ _ SP fr hd ps h l k R) as (A & B & pc & -> & Rp & [Lpc Pv] & E).
  destruct (remove_parts_pos eqk gtk lt SW (fun _ => true) (fun a b _ _ => Eq a b) (fun a b _ _ => Gt a b) k A B) as [Ba Bb]; auto; [apply Forall_forall; auto|].
  assert (E1 : Remove impl k (h, l) = (Ok false, (h, set_sl_prevs pc l))).
  { unfold Remove. rewrite (bind_eq _ _ _ _ _ E). destruct B as [|c B]; [reflexivity|]. destruct (eqk (ck c) k) eqn:Ek; [|reflexivity].
    exfalso. rewrite Eq in Ek. unfold has in Hn. rewrite kvs_app, existsb_app in Hn. cbn in Hn. rewrite Ek in Hn. rewrite orb_true_r in Hn. discriminate. }
  assert (BB : Forall (fun q : K * V => lt (fst q) k = false) (kvs B)).
  { assert (Forall (fun q : K * V => lt k (fst q) = true) (kvs B) -> Forall (fun q : K * V => lt (fst q) k = false) (kvs B)).
    { intros F. eapply Forall_impl; [|exact F]. intros q Hq. destruct (lt (fst q) k) eqn:Q; auto. pose proof (sw_trans _ SW _ _ _ Hq Q) as X. rewrite (sw_irrefl _ SW) in X. discriminate. }
    destruct B as [|c B]; [constructor|]. destruct (eqk (ck c) k) eqn:Ek; [|auto]. exfalso. rewrite Eq in Ek. unfold has in Hn. rewrite kvs_app, existsb_app in Hn. cbn in Hn. rewrite Ek in Hn. rewrite orb_true_r in Hn. discriminate. }
  assert (NA : exists A' c, A = A' ++ [c]).
  { destruct A as [|c A] using rev_ind; [|eauto]. exfalso. rewrite Forall_forall in BB. specialize (BB p0 I0). congruence. }
  destruct NA as (A' & c & ->).
  pose proof (r_level _ _ _ _ R) as Lv. cbn in Lv. pose proof (Pv O ltac:(lia)) as P0. rewrite tall0 in P0 by (intros d Id; apply (r_height _ _ _ _ R); apply in_app_iff; auto). rewrite lasta_app in P0. cbn [lasta] in P0.
  pose proof (r_nodup _ _ _ _ R) as ND. apply NoDup_cons_iff in ND as [Ni _].
  unfold s2, s1 in *. clear s1 s2. rewrite E1. cbn [snd]. destruct (Clear_ok fr hd _ _ _ (rep_prevs fr hd _ h l pc R Lpc)) as (s2 & E2 & R2). rewrite E2. cbn [snd]. destruct s2 as [h2 l2]. cbn [fst snd].
  assert (Q : (forall a, a <> hd -> nth_error h2 a = nth_error h a) /\ sl_prevs l2 = pc).
  { unfold Clear in E2. pose proof (r_head _ _ _ _ R) as Eh. cbn in Eh. rewrite bind_hget in E2. cbn [sl_head set_sl_prevs] in E2. rewrite Eh in E2. unfold bind, pload in E2. cbn [fst snd] in E2.
    destruct (nth_error h hd) as [n|]; [|discriminate]. destruct (clear_loop _ _ _) as [r [h3 l3]] eqn:E3. apply (clear_others hd) in E3 as [-> H3]; [|exact Eh]. destruct r; try discriminate. injection E2 as <- <-. auto. }
  destruct Q as [Q1 Q2]. pose proof (rep_chain0 _ _ _ _ _ R) as C. rewrite <- app_assoc in C, R, Ni. cbn [app] in C, R, Ni. apply chain_app in C as [_ C]. apply chain_cons in C as [_ [C _]].
  assert (Nh : forall a, In a (addrs (c :: B)) -> a <> hd) by (intros a Ia ->; apply Ni; unfold addrs in *; rewrite map_app; apply in_app_iff; now right).
  assert (C2 : path h2 0 (ca c) B).
  { assert (G : forall X x, path h 0 x X -> (forall a, In a (x :: addrs X) -> a <> hd) -> path h2 0 x X).
    { clear - Q1. induction X as [|d X IH]; intros x Px Nx; [exact I|]. destruct Px as [Px Px']. split; [|apply IH; auto; intros a Ia; apply Nx; now right]. unfold nx in *. now rewrite Q1 by (apply Nx; now left). }
    apply G; auto. }
  assert (Ip' : In p (kvs B)). { rewrite kvs_app in Ip. apply in_app_iff in Ip as [Ip|Ip]; auto. exfalso. rewrite Forall_forall in Ba. specialize (Ba p Ip). pose proof (sw_trans _ SW _ _ _ Ba Lp) as X. rewrite (sw_irrefl _ SW) in X. discriminate. }
  unfold kvs in Ip'. apply in_map_iff in Ip' as (d & <- & Id). exists (ca d). split.
  - apply (path_reach h2 _ B (ca c) C2); [|now apply in_map]. apply reach_root. right. rewrite Q2. eapply nth_error_In; exact P0.
  - rewrite Q1 by (apply Nh; right; now apply in_map). pose proof (r_cells _ _ _ _ R) as F. rewrite Forall_forall in F. specialize (F d ltac:(apply in_app_iff; right; now right)). unfold cellok, nd in F. cbn [fst] in F.
    destruct (nth_error h (ca d)); [|discriminate]. cbn in F. unfold pair_of. cbn. congruence.
Qed.
End RK.

(** *** Heaps and stacks *)
Lemma bind_inv {S A B} (p : M S A) (f : A -> M S B) s b s' : bind p f s = (Ok b, s') -> exists a s1, p s = (Ok a, s1) /\ f a s1 = (Ok b, s').
Proof. unfold bind. destruct (p s) as [[a| |] s1] eqn:E; intros H; try discriminate. eauto. Qed.
Lemma final_load {T} (h : slice) n (c : cell T) x m' h' : lift_mem (on_slice h (wload n)) c = (Ok x, (m', h')) -> wf_slice m' h -> zget (contents m' h) n = Some x.
Proof.
  destruct c as [m h2]. unfold lift_mem, on_slice, wload. cbn [fst snd]. destruct (zget (contents m h) n) as [y|] eqn:E; intros H; [|discriminate]. injection H as <- <- _. intros W. rewrite <- E. f_equal.
  assert (Em : write_at m h 0 (contents m h) = m).
  { unfold write_at, contents. rewrite Z.add_0_r. destruct W as (_ & W2 & _).
    assert (E1 : zwrite (arr_of m h) (s_off h) (zsub (arr_of m h) (s_off h) (s_off h + s_len h)) = arr_of m h).
    { unfold zwrite, zsub. set (l := arr_of m h). set (q := Z.to_nat (s_off h)). set (k := Z.to_nat _).
      transitivity (firstn q l ++ skipn q l); [f_equal|apply firstn_skipn]. transitivity (firstn k (skipn q l) ++ skipn k (skipn q l)); [f_equal|apply firstn_skipn].
      rewrite firstn_length, Nat.add_comm, <- skipn_skipn'. destruct (Nat.le_ge_cases k (length (skipn q l))) as [L|L].
      - now rewrite Nat.min_l by auto.
      - rewrite Nat.min_r by auto. rewrite !skipn_all2; auto. }
    rewrite E1. unfold arr_of. clear. generalize (s_arr h). induction m as [|x m IH]; intros [|a]; cbn; auto. now rewrite IH. }
  now rewrite Em.
Qed.
