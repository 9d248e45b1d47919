(** DList simulates lists with element identities and an end. *)
From Verif Require Import BaseLemmas Spec Trace Spec_List Spec_Client Nodes Proof_Nodes Spec_ListIter Model_ListIter Proof_Client Proof_ListIter Model_DList Proof_DList.
Set Default Proof Using "Type".
Local Arguments zlen : simpl never. Local Arguments pload : simpl never. Local Arguments pmod : simpl never.

(** Programs that keep all values and the sentinel. *)
Section Pv.
Context {T : Type}.
Notation DP := (P (dnode T) dlist).
Definition pv {A} (m : DP A) : Prop := forall s, (length (fst s) <= length (fst (snd (m s))))%nat /\
  (forall x, (x < length (fst s))%nat -> val (fst (snd (m s))) x = val (fst s) x) /\ (forall a, d_head (snd s) = Some a -> d_head (snd (snd (m s))) = Some a).
Lemma pv_id {A} (m : DP A) : (forall s, snd (m s) = s) -> pv m.
Proof. intros E s. rewrite E. auto. Qed.
Lemma pv_bind {A B} (m : DP A) (k : A -> DP B) : pv m -> (forall a, pv (k a)) -> pv (x <- m ;; k x).
Proof.
  intros H1 H2 s. unfold bind. specialize (H1 s). destruct (m s) as [[a| |] s1]; auto. cbn [fst snd] in *. destruct H1 as (L1 & V1 & D1). destruct (H2 a s1) as (L2 & V2 & D2).
  split; [lia|]. split; auto. intros x Lx. rewrite V2 by lia. auto.
Qed.
Lemma pv_if {A} (b : bool) (m1 m2 : DP A) : pv m1 -> pv m2 -> pv (if b then m1 else m2).
Proof. now destruct b. Qed.
Lemma pv_hget {A} (f : dlist -> A) : pv (hget f).
Proof. now apply pv_id. Qed.
Lemma pv_ret {A} (a : A) : pv (ret a).
Proof. now apply pv_id. Qed.
Lemma pv_panic {A} : pv (@panic _ A).
Proof. now apply pv_id. Qed.
Lemma pv_pload p : pv (@pload (dnode T) dlist p).
Proof. apply pv_id. intros [h hdr]. unfold pload. destruct p as [a|]; auto. cbn. now destruct (nth_error h a). Qed.
Lemma pv_load {A} p (f : dnode T -> A) : pv (n <- pload p ;; ret (f n)).
Proof. apply pv_bind; [apply pv_pload|]. intros. apply pv_ret. Qed.
Lemma pv_pmod p (f : dnode T -> dnode T) : (forall n, d_value (f n) = d_value n) -> pv (pmod p f).
Proof.
  intros Hf [h hdr]. unfold pmod. destruct p as [a|]; auto. cbn. destruct (nth_error h a) as [n|] eqn:E; cbn [fst snd]; auto. rewrite upd_length. split; auto. split; auto.
  intros x Lx. unfold val. destruct (Nat.eq_dec a x) as [<-|N]; [rewrite nth_error_upd_eq by (now apply nth_lt in E); rewrite E; cbn; now rewrite Hf|now rewrite nth_error_upd_ne].
Qed.
Lemma pv_pnew n : pv (@pnew (dnode T) dlist n).
Proof. intros [h hdr]. cbn. rewrite app_length. cbn. split; [lia|]. split; auto. intros x Lx. unfold val. now rewrite nth_error_app1. Qed.
Lemma pv_length n : pv (@hmod (dnode T) dlist (set_d_length n)).
Proof. intros [h hdr]. cbn. auto. Qed.
End Pv.
Ltac pv := repeat first [apply pv_bind; [|intros ?] | apply pv_if | apply pv_hget | apply pv_ret | apply pv_panic | apply pv_load | apply pv_pload | (apply pv_pmod; reflexivity) | apply pv_pnew | apply pv_length].
Section S.
Context {T : Type}.
Variable zero : T.
Lemma pv_TryPopFront : pv (TryPopFront zero).
Proof. unfold TryPopFront, IsEmpty, ld_next, ld_prev, ld_value, st_next, st_prev. pv. Qed.
Lemma pv_TryPopBack : pv (TryPopBack zero).
Proof. unfold TryPopBack, IsEmpty, ld_next, ld_prev, ld_value, st_next, st_prev. pv. Qed.
Lemma pv_PopFront : pv (PopFront zero).
Proof. unfold PopFront. apply pv_bind; [apply pv_TryPopFront|]. intros r. pv. Qed.
Lemma pv_PopBack : pv (PopBack zero).
Proof. unfold PopBack. apply pv_bind; [apply pv_TryPopBack|]. intros r. pv. Qed.
Lemma pv_Clear : pv (@Clear T).
Proof. unfold Clear, st_next, st_prev. pv. Qed.
(** The sentinel is made by the first push. *)
Definition end_after (s s' : list (dnode T) * dlist) : Prop := exists hd, d_head (snd s') = Some hd /\
  (d_head (snd s) = Some hd /\ val (fst s') hd = val (fst s) hd \/ d_head (snd s) = None /\ val (fst s') hd = Some zero).
Lemma ensure_end {A} fr l s (k : P (dnode T) dlist A) : rep fr l s -> pv k -> end_after s (snd ((ensureHead zero ;; k) s)).
Proof.
  intros R Hk. destruct (ensureHead_ok zero fr l s R) as (h & hd & E & R1 & Old & L & D). unfold bind. rewrite E. destruct (Hk (h, mkDList (Some hd) (zlen l))) as (_ & V & D2). cbn [fst snd d_head] in *.
  exists hd. split; [now apply D2|]. assert (Lh : (hd < length h)%nat) by (destruct R1 as (_ & _ & Rg & _); cbn [fst snd d_head] in Rg; eapply ring_lt; [exact Rg|now left]).
  rewrite V by auto. destruct D as [D|[D Ez]]; [left|right; auto]. split; auto. unfold val. f_equal. apply Old.
  destruct s as [h0 hdr]. destruct R as (_ & _ & R). cbn [fst snd] in *. rewrite D in R. destruct R as (Rg & _). eapply ring_lt; [exact Rg|now left].
Qed.
Lemma PushFront_end fr l s v : rep fr l s -> end_after s (snd (PushFront zero v s)).
Proof. intros R. eapply ensure_end; [exact R|]. unfold ld_next, st_next, st_prev. pv. Qed.
Lemma PushBack_end fr l s v : rep fr l s -> end_after s (snd (PushBack zero v s)).
Proof. intros R. eapply ensure_end; [exact R|]. unfold ld_prev, st_next, st_prev. pv. Qed.
(** The sentinel stays. *)
Definition end_same (s s' : list (dnode T) * dlist) : Prop := d_head (snd s') = d_head (snd s) /\ (forall hd, d_head (snd s) = Some hd -> val (fst s') hd = val (fst s) hd).
Lemma pv_same {A} (m : P (dnode T) dlist A) fr l s : pv m -> rep fr l s -> (d_head (snd s) = None -> d_head (snd (snd (m s))) = None) -> end_same s (snd (m s)).
Proof.
  intros Hm R Hn. destruct (Hm s) as (_ & V & D). split.
  - destruct (d_head (snd s)) as [hd|] eqn:E; auto.
  - intros hd E. apply V. destruct R as (_ & _ & R). rewrite E in R. destruct R as (Rg & _). eapply ring_lt; [exact Rg|now left].
Qed.
Definition unlinked (s' : list (dnode T) * dlist) (c : nat * T) : Prop := nxt (fst s') (fst c) = Some None /\ val (fst s') (fst c) = Some (snd c).
Definition dmoved {St} (o : dop T St) (l l' : list (nat * T)) (s s' : list (dnode T) * dlist) : Prop :=
  match o with
  | DPushFront _ => (exists a, addrs l' = a :: addrs l) /\ end_after s s'
  | DPushBack _ => (exists a, addrs l' = addrs l ++ [a]) /\ end_after s s'
  | DPopFront | DTryPopFront => end_same s s' /\ (l = [] /\ l' = [] /\ s' = s \/ exists c, l = c :: l' /\ unlinked s' c)
  | DPopBack | DTryPopBack => end_same s s' /\ (l = [] /\ l' = [] /\ s' = s \/ exists c, l = l' ++ [c] /\ unlinked s' c)
  | DClear => end_same s s' /\ l' = [] /\ (forall x, Some x <> d_head (snd s) -> nxt (fst s') x = nxt (fst s) x) /\ (forall x, val (fst s') x = val (fst s) x)
  | _ => end_same s s' /\ addrs l' = addrs l
  end.
Lemma end_refl s : end_same s s.
Proof. split; auto. Qed.
Lemma rep_nil_head fr l (s : list (dnode T) * dlist) : rep fr l s -> d_head (snd s) = None -> l = [].
Proof. intros (_ & _ & R) E. now rewrite E in R. Qed.
Lemma end_values fr l (s s' : list (dnode T) * dlist) : rep fr l s -> d_head (snd s') = d_head (snd s) -> (forall x, ~ In x (addrs l) -> val (fst s') x = val (fst s) x) -> end_same s s'.
Proof. intros R E V. split; auto. intros hd Eh. apply V. destruct R as (_ & _ & R). rewrite Eh in R. destruct R as ((_ & _ & _ & ND) & _). now inversion ND. Qed.
Lemma TryPopFront_moved fr l s : rep fr l s -> exists l', map snd l' = tl (map snd l) /\ rep fr l' (snd (TryPopFront zero s)) /\ end_same s (snd (TryPopFront zero s)) /\
  (l = [] /\ l' = [] /\ snd (TryPopFront zero s) = s \/ exists c, l = c :: l' /\ unlinked (snd (TryPopFront zero s)) c).
Proof.
  intros R. destruct l as [|[c v] l].
  - rewrite (TryPopFront_empty _ _ _ R). exists []. cbn [snd]. split; auto. split; auto. split; [apply end_refl|auto].
  - destruct (TryPopFront_ok zero fr c v l s R) as (s' & E & R' & Eh & N & V). assert (Es := pv_same (TryPopFront zero) fr _ s pv_TryPopFront R). rewrite E in *. cbn [snd] in *.
    exists l. split; auto. split; auto. split; [apply Es; intros K; apply (rep_nil_head _ _ _ R) in K; discriminate|]. right. exists (c, v). split; auto. split; auto.
Qed.
Lemma TryPopBack_moved fr l s : rep fr l s -> exists l', map snd l' = removelast (map snd l) /\ rep fr l' (snd (TryPopBack zero s)) /\ end_same s (snd (TryPopBack zero s)) /\
  (l = [] /\ l' = [] /\ snd (TryPopBack zero s) = s \/ exists c, l = l' ++ [c] /\ unlinked (snd (TryPopBack zero s)) c).
Proof.
  intros R. destruct (Proof_SList.snoc_case l) as [->|(l' & [c v] & ->)].
  - rewrite (TryPopBack_empty _ _ _ R). exists []. cbn [snd]. split; auto. split; auto. split; [apply end_refl|auto].
  - destruct (TryPopBack_ok zero fr c v l' s R) as (s' & E & R' & Eh & N & V). assert (Es := pv_same (TryPopBack zero) fr _ s pv_TryPopBack R). rewrite E in *. cbn [snd] in *.
    exists l'. rewrite map_app. cbn [map snd]. rewrite removelast_snoc. split; auto. split; auto. split; [apply Es; intros K; apply (rep_nil_head _ _ _ R) in K; destruct l'; discriminate|]. right. exists (c, v). split; auto. split; auto.
Qed.
Lemma PopFront_state s : snd (PopFront zero s) = snd (TryPopFront zero s).
Proof. unfold PopFront, bind. destruct (TryPopFront zero s) as [[[v b]| |] s']; auto. now destruct b. Qed.
Lemma PopBack_state s : snd (PopBack zero s) = snd (TryPopBack zero s).
Proof. unfold PopBack, bind. destruct (TryPopBack zero s) as [[[v b]| |] s']; auto. now destruct b. Qed.
Lemma show_snd {A R S} (f : A -> R) (m : M S A) s : snd (show f m s) = snd (m s).
Proof. unfold show. now destruct (m s). Qed.
Lemma step_moved {St} fr l s (o : dop T St) : rep fr l s -> exists l',
  map snd l' = snd (dlist_spec zero o (map snd l)) /\ rep fr l' (snd (dlist_step zero o s)) /\ dmoved o l l' s (snd (dlist_step zero o s)).
Proof.
  intros R. assert (Q : forall s', s' = s -> exists l', map snd l' = map snd l /\ rep fr l' s' /\ end_same s s' /\ addrs l' = addrs l).
  { intros s' ->. exists l. split; auto. split; auto. split; auto. apply end_refl. }
  destruct o; cbn [dlist_step dlist_spec dmoved]; rewrite ?show_snd.
  - destruct (PushFront_ok zero fr l s v R) as (s' & a & E & R'). pose proof (PushFront_end fr l s v R) as He. rewrite E in *. cbn. exists ((a, v) :: l). split; auto. split; auto. split; auto. exists a. reflexivity.
  - destruct (PushBack_ok zero fr l s v R) as (s' & a & E & R'). pose proof (PushBack_end fr l s v R) as He. rewrite E in *. cbn. exists (l ++ [(a, v)]). split; [apply map_app|]. split; auto. split; auto. exists a. apply addrs_app.
  - rewrite PopFront_state. destruct (TryPopFront_moved fr l s R) as (l' & V & R' & H). exists l'. auto.
  - rewrite PopBack_state. destruct (TryPopBack_moved fr l s R) as (l' & V & R' & H). exists l'. auto.
  - destruct (TryPopFront_moved fr l s R) as (l' & V & R' & H). exists l'. auto.
  - destruct (TryPopBack_moved fr l s R) as (l' & V & R' & H). exists l'. auto.
  - destruct (Clear_ok fr l s R) as (s' & E & R' & Eh & El & N & V). rewrite E. cbn [snd]. exists []. split; auto. split; auto. split; [split; auto|auto].
  - now apply Q.
  - now apply Q.
  - rewrite (Front_ok fr l s R). now apply Q.
  - rewrite (Back_ok fr l s R). now apply Q.
  - rewrite (ForEach_ok cb fr l s st R). now apply Q.
  - rewrite (ForEachIf_ok cb fr l s st R). now apply Q.
  - destruct (ForEachMutable_ok cb fr l s st R) as (s' & E & R' & Eh & V). rewrite E. pose proof (Proof_SList.map_st_len cb (map snd l) st) as L. destruct (map_st cb st (map snd l)) as [ys st'].
    cbn [fst snd] in *. rewrite map_length in L. destruct (combine_addrs l ys L) as [EA EV]. eexists. split; [exact EV|]. split; [exact R'|]. split; auto. eapply end_values; eauto.
  - destruct (ForEachMutableIf_ok cb fr l s st R) as (s' & E & R' & Eh & V). rewrite E. pose proof (Proof_SList.map_while_len cb (map snd l) st) as L. destruct (map_while cb st (map snd l)) as [ys st'].
    cbn [fst snd] in *. rewrite map_length in L. destruct (combine_addrs l ys L) as [EA EV]. eexists. split; [exact EV|]. split; [exact R'|]. split; auto. eapply end_values; eauto.
  - rewrite (iter_all_ok fr l s R). now apply Q.
  - rewrite (iter_get_ok zero fr l s i R). now apply Q.
  - destruct (iter_set_ok fr l s i v R) as (s' & l' & E & R' & V & EA & Eh & W). rewrite E. exists l'. split; auto. split; auto. split; auto. eapply end_values; eauto.
Qed.
End S.

(** The address of a place. *)
Definition Rp (k : know) (p : ptr) (q : place) : Prop :=
  match q with
  | Nowhere => p = None
  | End => p = snd k /\ snd k <> None
  | At i => p = Some (fst (fst k) i) /\ (i < snd (fst k))%nat
  end.
Lemma Rp_le a b p q : kle a b -> Rp a p q -> Rp b p q.
Proof.
  intros (L & F & D). destruct q as [| |i]; cbn; auto.
  - intros [-> N]. destruct (snd a) as [hd|] eqn:E; [|congruence]. rewrite (D hd eq_refl). split; congruence.
  - intros [-> Li]. rewrite F by auto. split; auto. lia.
Qed.
Lemma ring_node {T} (h : list (dnode T)) hd L a v R : ring h hd (L ++ (a, v) :: R) -> val h a = Some v /\ nxt h a = Some (Some (hdp hd R)) /\ a <> hd.
Proof.
  intros (O & N & _ & ND). apply open_app in O as [_ (_ & _ & V & O)]. rewrite lst_app in N. cbn [lst] in N. split; auto. split; [now apply open_first|].
  intros ->. inversion ND as [|? ? NI _]; subst. apply NI. rewrite addrs_app. apply in_app_iff. right. now left.
Qed.
Lemma node_of {T} (h : list (dnode T)) a p v : nxt h a = Some p -> val h a = Some v -> exists n, nth_error h a = Some n /\ d_next n = p /\ d_value n = v.
Proof. unfold nxt, val. destruct (nth_error h a) as [n|]; cbn; [|discriminate]. intros [= <-] [= <-]. eauto. Qed.
Lemma hdp_cells {T} (f : nat -> nat) hd (R : list (nat * T)) : hdp hd (map (cell f) R) = match first_id R with Some i => f i | None => hd end.
Proof. destruct R as [|[i v] R]; auto. Qed.

Section D.
Context {T St : Type}.
Variable zero : T.
Variable fr0 : nat -> option (dnode T).
Notation W := (lworld T place).
Notation DS := (list (dnode T) * dlist)%type.
Definition Gone (k : know) (fr : nat -> option (dnode T)) (w : W) : Prop :=
  forall i v q, In (i, v, q) (w_gone w) -> exists n, fr (fst (fst k) i) = Some n /\ d_value n = v /\ Rp k (d_next n) q /\ fr0 (fst (fst k) i) = None.
Definition Rw (k : know) (fr : nat -> option (dnode T)) (s : DS) (w : W) : Prop :=
  wf w /\ injf (fst (fst k)) (w_made w) /\ (forall a n, fr0 a = Some n -> fr a = Some n) /\ rep fr (map (cell (fst (fst k))) (w_live w)) s /\ Gone k fr w.
Definition Rend (k : know) (s : DS) (z : option T) : Prop :=
  d_head (snd s) = snd k /\ match snd k, z with Some hd, Some x => val (fst s) hd = Some x | None, None => True | _, _ => False end.
Definition Rs (k : know) (s : DS) (w : dworld T) : Prop := w_made (dw_list w) = snd (fst k) /\ Rend k s (dw_end w) /\ exists fr, Rw k fr s (dw_list w).

Lemma rep_keeps fr (l : list (nat * T)) s : rep fr l s -> keeps fr (fst s).
Proof. intros (K & _). exact K. Qed.
Lemma rep_out fr (l : list (nat * T)) s a : rep fr l s -> In a (addrs l) -> fr a = None.
Proof. intros (_ & _ & R) I. destruct (d_head (snd s)); [apply R; now right|subst l; destruct I]. Qed.
Lemma rep_head_out fr (l : list (nat * T)) s hd : rep fr l s -> d_head (snd s) = Some hd -> fr hd = None /\ ~ In hd (addrs l) /\ ring (fst s) hd l.
Proof. intros (_ & _ & R) E. rewrite E in R. destruct R as (Rg & LB). split; [apply LB; now left|]. split; auto. destruct Rg as (_ & _ & _ & ND). now inversion ND. Qed.
Lemma rep_nodup fr (l : list (nat * T)) s : rep fr l s -> NoDup (addrs l).
Proof. intros (_ & _ & R). destruct (d_head (snd s)); [destruct R as ((_ & _ & _ & ND) & _); now inversion ND|subst l; constructor]. Qed.
Lemma rep_reframe fr fr' (l : list (nat * T)) s : rep fr l s -> keeps fr' (fst s) -> (forall a, In a (addrs l) \/ d_head (snd s) = Some a -> fr' a = None) -> rep fr' l s.
Proof. intros (K & En & R) K' N. split; auto. split; auto. destruct (d_head (snd s)) as [hd|]; auto. destruct R as (Rg & _). split; auto. intros a [<-|I]; auto. Qed.
Lemma fr0_none k fr s w a : Rw k fr s w -> fr a = None -> fr0 a = None.
Proof. intros (_ & _ & F & _) E. destruct (fr0 a) eqn:E0; auto. apply F in E0. congruence. Qed.

(** The node of an element. *)
Lemma element k h hdr w i : Rs k (h, hdr) w -> (i < w_made (dw_list w))%nat -> exists n q, nth_error h (fst (fst k) i) = Some n /\
  value_of i (dw_list w) = Some (d_value n) /\ next_of to_place i (dw_list w) = Some q /\ Rp k (d_next n) q /\ snd k <> Some (fst (fst k) i).
Proof.
  intros (Em & (Eh & _) & fr & Hw & Inj & _ & R & G) Li. set (f := fst (fst k)) in *. destruct (id_cases to_place (dw_list w) i Hw Li) as [(L & v & Rr & El & Ev & En & _)|(v & q & I & Ev & En & _)].
  - pose proof R as (_ & _ & Rg). cbn [fst snd] in *. rewrite Eh in Rg. destruct (snd k) as [hd|] eqn:Ek; [|rewrite El in Rg; destruct L; discriminate]. destruct Rg as (Rg & _).
    rewrite El, map_app in Rg. cbn [map] in Rg. unfold cell at 2 in Rg. cbn [fst snd] in Rg. destruct (ring_node _ _ _ _ _ _ Rg) as (V & N & NE). destruct (node_of _ _ _ _ N V) as (n & E & E1 & E2).
    exists n, (to_place (first_id Rr)). split; auto. split; [congruence|]. split; auto. split; [|congruence]. rewrite E1, hdp_cells. destruct (first_id Rr) as [j|] eqn:Ej; cbn [to_place Rp].
    + split; auto. rewrite <- Em. eapply behind_lt; eauto.
    + rewrite Ek. split; congruence.
  - destruct (G i v q I) as (n & E & V & N & _). exists n, q. split; [exact (rep_keeps _ _ _ R _ _ E)|]. split; [congruence|]. split; auto. split; auto.
    intros Ek. rewrite Ek in Eh. destruct (rep_head_out _ _ _ _ R Eh) as [K _]. fold f in E. congruence.
Qed.

Lemma push_case k fr s w s' l' a o : Rw k fr s w -> w_made w = snd (fst k) -> rep fr l' s' -> In a (addrs l') ->
  (forall b, In b (addrs (map (cell (fst (fst k))) (w_live w))) -> b <> a) -> (forall b, snd k = Some b -> o = Some b) ->
  injf (ext (fst (fst k)) (w_made w) a) (S (w_made w)) /\ kle k (ext (fst (fst k)) (w_made w) a, S (w_made w), o) /\
  (forall i v q, In (i, v, q) (w_gone w) -> exists n, fr (ext (fst (fst k)) (w_made w) a i) = Some n /\ d_value n = v /\ Rp (ext (fst (fst k)) (w_made w) a, S (w_made w), o) (d_next n) q /\ fr0 (ext (fst (fst k)) (w_made w) a i) = None).
Proof.
  intros (Hw & Inj & _ & R & G) Em R' Ia Hl Ho. set (f := fst (fst k)) in *.
  assert (Lk : kle k (ext f (w_made w) a, S (w_made w), o)). { split; [cbn; lia|]. split; [|exact Ho]. intros i Li. cbn. apply ext_old. lia. }
  split; [|split; auto].
  - apply inj_ext; auto. intros i Li E. destruct (id_cases to_place w i Hw Li) as [(L & v & Rr & El & _)|(v & q & I & _)].
    + apply (Hl (f i)); auto. unfold addrs. rewrite cell_fst. apply in_map. rewrite El, map_app. apply in_app_iff. right. now left.
    + destruct (G i v q I) as (n & E2 & _). fold f in E2. rewrite E in E2. rewrite (rep_out _ _ _ _ R' Ia) in E2. discriminate.
  - intros i v q I. destruct (G i v q I) as (n & E & V & Hp & E0). pose proof (gone_lt _ _ _ _ Hw I). rewrite ext_old by auto. exists n. split; auto. split; auto. split; auto. eapply Rp_le; eauto.
Qed.
(** Some elements leave; their nodes are as in the new heap. *)
Lemma retire_case k fr s w xs l' s' : Rw k fr s w -> rep fr l' s' -> (forall a, In a xs -> fr a = None) -> (forall a, In a (addrs l') \/ d_head (snd s') = Some a -> ~ In a xs) ->
  let fr' := retire fr xs (fst s') in
  (forall a n, fr0 a = Some n -> fr' a = Some n) /\ rep fr' l' s' /\ Gone k fr' w.
Proof.
  intros (Hw & Inj & F0 & R & G) R' Nx Nl fr'. split; [|split].
  - intros a n E. unfold fr'. rewrite retire_out; auto. intros I. apply Nx in I. apply F0 in E. congruence.
  - eapply rep_reframe; [exact R'|apply retire_keeps; exact (rep_keeps _ _ _ R')|]. intros a Ha. unfold fr'. rewrite retire_out by auto.
    destruct Ha as [I|E]; [exact (rep_out _ _ _ _ R' I)|exact (proj1 (rep_head_out _ _ _ _ R' E))].
  - intros i v q I. destruct (G i v q I) as (n & E & V & Hp & E0). exists n. split; auto. unfold fr'. rewrite retire_out; auto. intros I2. apply Nx in I2. congruence.
Qed.
Lemma Rend_same k s s' z : end_same s s' -> Rend k s z -> Rend k s' z.
Proof. intros (E1 & V) (E2 & H). split; [congruence|]. destruct (snd k) as [hd|]; auto. destruct z as [x|]; auto. rewrite V; auto. Qed.
Lemma cells_id (l' l : list (nat * T)) : map fst l' = map fst l -> map snd l' = map snd l -> l' = l.
Proof. revert l. induction l' as [|[a v] l' IH]; intros [|[b u] l] E1 E2; try discriminate; auto. cbn in *. injection E1 as -> E1. injection E2 as -> E2. f_equal. auto. Qed.
Lemma cells_app_inv f l (a b : list (nat * T)) : map (cell f) l = a ++ b -> exists l1 l2, l = l1 ++ l2 /\ map (cell f) l1 = a /\ map (cell f) l2 = b.
Proof. revert l. induction a as [|x a IH]; intros l E; [exists [], l; auto|]. destruct l as [|y l]; [discriminate|]. cbn in E. injection E as E1 E2. destruct (IH l E2) as (l1 & l2 & -> & <- & <-). exists (y :: l1), l2. cbn. now rewrite E1. Qed.
Lemma pop_case k s (w : dworld T) w' fr s' l' c i v L Rr : Rs k s w -> Rw k fr s (dw_list w) -> w_live (dw_list w) = L ++ (i, v) :: Rr -> c = cell (fst (fst k)) (i, v) ->
  map (cell (fst (fst k))) (L ++ Rr) = l' -> rep fr l' s' -> end_same s s' -> unlinked s' c -> w' = mkW (L ++ Rr) ((i, v, Nowhere) :: w_gone (dw_list w)) (w_made (dw_list w)) -> wf w' -> Rs k s' (mkDW w' (dw_end w)).
Proof.
  intros (Em & He & _) Hrw El -> El' R' Es [U1 U2] -> Hw'. split; [exact Em|]. split; [eapply Rend_same; eauto|]. cbn [fst snd cell] in U1, U2. pose proof Hrw as (Hw & Inj & F0 & R & G).
  set (f := fst (fst k)) in *. set (a := f i) in *. cbn [dw_list dw_end].
  assert (Ia : In a (addrs (map (cell f) (w_live (dw_list w))))) by (unfold addrs; rewrite cell_fst; apply in_map; rewrite El, map_app; apply in_app_iff; right; now left).
  assert (Na : ~ In a (addrs l')).
  { rewrite <- El'. pose proof (rep_nodup _ _ _ R) as ND. unfold addrs in *. rewrite cell_fst, El, !map_app in ND. cbn [map fst] in ND. fold a in ND. apply NoDup_remove_2 in ND. now rewrite cell_fst, !map_app. }
  destruct (retire_case k fr s (dw_list w) [a] l' s' Hrw R') as (F1 & R1 & G1).
  - intros b [<-|[]]. exact (rep_out _ _ _ _ R Ia).
  - intros b [I|E] [<-|[]]; auto. destruct Es as [Eh _]. rewrite Eh in E. destruct (rep_head_out _ _ _ _ R E) as (_ & N & _). auto.
  - exists (retire fr [a] (fst s')). split; auto. split; [exact Inj|]. split; auto. cbn [w_live]. fold f. rewrite El'. split; auto.
    intros j u q [E|I]; [|exact (G1 j u q I)]. injection E as <- <- <-. fold f. fold a. rewrite retire_in by (now left). destruct (node_of _ _ _ _ U1 U2) as (n & E & E1 & E2). exists n. split; auto. split; auto.
    split; [exact E1|]. eapply fr0_none; [exact Hrw|]. exact (rep_out _ _ _ _ R Ia).
Qed.
Lemma call_sim k (o : dop T St) : sim know kle Rs (same know) k (l_call (dlist_listing zero) o) (l_call (dl_spec zero) o).
Proof.
  intros k' s w _ Hs. pose proof Hs as (Em & He & fr & Hrw). pose proof Hrw as (Hw & Inj & F0 & R & G). set (f := fst (fst k')) in *. cbn [l_call dlist_listing dl_spec].
  destruct (step_moved zero fr _ s o R) as (l' & V & R' & Mv). rewrite cell_snd in V. fold (values (dw_list w)) in V.
  assert (E : fst (dlist_step zero o s) = fst (dlist_spec zero o (values (dw_list w)))).
  { destruct (step_ok zero fr (values (dw_list w)) s o) as [E _]; auto. exists (map (cell f) (w_live (dw_list w))). split; auto. now rewrite cell_snd. }
  assert (Fin : forall k2, kle k' k2 -> Rs k2 (snd (dlist_step zero o s)) (dl_world zero o w) -> agree know kle Rs (same know) k' (dlist_step zero o s) (fst (dlist_spec zero o (values (dw_list w))), dl_world zero o w)).
  { intros k2 Lk H. exists k2. split; auto. cbn [fst snd]. split; auto. rewrite E. destruct (fst (dlist_spec zero o (values (dw_list w)))); auto. reflexivity. }
  assert (Same : dl_world zero o w = on_world (revalue (snd (dlist_spec zero o (values (dw_list w))))) w -> end_same s (snd (dlist_step zero o s)) /\ addrs l' = addrs (map (cell f) (w_live (dw_list w))) ->
    agree know kle Rs (same know) k' (dlist_step zero o s) (fst (dlist_spec zero o (values (dw_list w))), dl_world zero o w)).
  { intros Ew [Es Ea]. apply (Fin k'); [apply kle_refl|]. rewrite Ew. unfold addrs in Ea. rewrite cell_fst in Ea. destruct (cells_revalue f l' (dw_list w) Ea) as [El Len]. rewrite V in El, Len.
    split; [exact Em|]. split; [eapply Rend_same; eauto|]. exists fr. split; [now apply wf_revalue|]. split; [exact Inj|]. split; [exact F0|]. split; [|exact G]. cbn [dw_list on_world]. fold f. rewrite <- El. exact R'. }
  assert (ND' := rep_nodup _ _ _ R').
  assert (Push : forall v a w2, dl_world zero o w = mkDW w2 (with_end zero w) -> end_after zero s (snd (dlist_step zero o s)) -> w_made w2 = S (w_made (dw_list w)) -> w_gone w2 = w_gone (dw_list w) -> wf w2 ->
    In a (addrs l') -> (forall b, In b (addrs (map (cell f) (w_live (dw_list w)))) -> b <> a) -> l' = map (cell (ext f (w_made (dw_list w)) a)) (w_live w2) ->
    snd (dlist_spec zero o (values (dw_list w))) = v ->
    agree know kle Rs (same know) k' (dlist_step zero o s) (fst (dlist_spec zero o (values (dw_list w))), dl_world zero o w)).
  { intros _ a w2 Ew (hd & Eh & Hd) Em2 Eg2 Hw2 Ia Hb El2 _. destruct He as [Eh0 Hz].
    destruct (push_case k' fr s (dw_list w) _ l' a (Some hd) Hrw Em R' Ia Hb) as (I2 & L2 & G2).
    { intros b Eb. rewrite <- Eh0 in Eb. destruct Hd as [[Hd _]|[Hd _]]; congruence. }
    apply (Fin _ L2). rewrite Ew. split; [exact Em2|]. split; [split; [exact Eh|]|].
    - cbn [snd dw_end]. unfold with_end. destruct Hd as [[Hd Hv]|[Hd Hv]]; rewrite Hd in Eh0; rewrite <- Eh0 in Hz; destruct (dw_end w) as [x|]; try contradiction; congruence.
    - exists fr. split; [exact Hw2|]. cbn [fst snd dw_list]. split; [now rewrite Em2|]. split; [exact F0|]. split; [fold f; rewrite <- El2; exact R'|]. unfold Gone. rewrite Eg2. exact G2. }
  destruct o; cbn [dmoved] in Mv; try (apply Same; [reflexivity|exact Mv]).
  - destruct Mv as ((a & Ea) & He'). rewrite Ea in ND'. eapply (Push _ a); [reflexivity|exact He'|reflexivity|reflexivity|now apply wf_push_front|rewrite Ea; now left| | |reflexivity].
    + intros b Ib ->. now inversion ND'.
    + cbn [w_live push_front map]. rewrite ext_cells by (now apply live_forall). unfold cell at 1. cbn [fst snd]. rewrite ext_new. apply cells_id; [exact Ea|]. cbn [map snd]. rewrite cell_snd. exact V.
  - destruct Mv as ((a & Ea) & He'). rewrite Ea in ND'. eapply (Push _ a); [reflexivity|exact He'|reflexivity|reflexivity|now apply wf_push_back|rewrite Ea; apply in_app_iff; right; now left| | |reflexivity].
    + intros b Ib ->. apply NoDup_app_split in ND' as (_ & _ & ND'). apply (ND' _ Ib). now left.
    + cbn [w_live push_back]. rewrite map_app, ext_cells by (now apply live_forall). cbn [map]. unfold cell at 2. cbn [fst snd]. rewrite ext_new. apply cells_id; [rewrite map_app; exact Ea|]. rewrite map_app, cell_snd. exact V.
  - apply (Fin k'); [apply kle_refl|]. cbn [dl_world]. destruct Mv as (Es & [(El & -> & Ek)|(c & El & U)]).
    + rewrite Ek. unfold on_world, pop_front. destruct (w_live (dw_list w)) eqn:El2; [|discriminate]. destruct w. exact Hs.
    + destruct (w_live (dw_list w)) as [|[i v] r] eqn:El2; [discriminate|]. cbn [map] in El. injection El as Ec El. unfold on_world.
      eapply (pop_case k' s w _ fr _ l' c i v [] r); eauto; [unfold pop_front; now rewrite El2|now apply wf_pop_front].
  - apply (Fin k'); [apply kle_refl|]. cbn [dl_world]. destruct Mv as (Es & [(El & -> & Ek)|(c & El & U)]).
    + rewrite Ek. unfold on_world, pop_back. destruct (w_live (dw_list w)) eqn:El2; [|discriminate]. cbn [rev]. destruct w. exact Hs.
    + apply cells_app_inv in El as (l1 & l2 & El2 & E1 & E2). destruct l2 as [|[i v] [|? ?]]; try discriminate. injection E2 as E2. unfold on_world.
      eapply (pop_case k' s w _ fr _ l' c i v l1 []); eauto; [now rewrite app_nil_r| |now apply wf_pop_back]. unfold pop_back. rewrite El2, rev_app_distr. cbn [rev app]. now rewrite rev_involutive, app_nil_r.
  - apply (Fin k'); [apply kle_refl|]. cbn [dl_world]. destruct Mv as (Es & [(El & -> & Ek)|(c & El & U)]).
    + rewrite Ek. unfold on_world, pop_front. destruct (w_live (dw_list w)) eqn:El2; [|discriminate]. destruct w. exact Hs.
    + destruct (w_live (dw_list w)) as [|[i v] r] eqn:El2; [discriminate|]. cbn [map] in El. injection El as Ec El. unfold on_world.
      eapply (pop_case k' s w _ fr _ l' c i v [] r); eauto; [unfold pop_front; now rewrite El2|now apply wf_pop_front].
  - apply (Fin k'); [apply kle_refl|]. cbn [dl_world]. destruct Mv as (Es & [(El & -> & Ek)|(c & El & U)]).
    + rewrite Ek. unfold on_world, pop_back. destruct (w_live (dw_list w)) eqn:El2; [|discriminate]. cbn [rev]. destruct w. exact Hs.
    + apply cells_app_inv in El as (l1 & l2 & El2 & E1 & E2). destruct l2 as [|[i v] [|? ?]]; try discriminate. injection E2 as E2. unfold on_world.
      eapply (pop_case k' s w _ fr _ l' c i v l1 []); eauto; [now rewrite app_nil_r| |now apply wf_pop_back]. unfold pop_back. rewrite El2, rev_app_distr. cbn [rev app]. now rewrite rev_involutive, app_nil_r.
  - apply (Fin k'); [apply kle_refl|]. cbn [dl_world]. destruct Mv as (Es & -> & Nn & Vn). split; [exact Em|]. split; [eapply Rend_same; eauto|]. set (s' := snd (dlist_step zero DClear s)) in *. cbn [on_world dw_list].
    assert (Al : addrs (map (cell f) (w_live (dw_list w))) = map f (map fst (w_live (dw_list w)))) by (unfold addrs; apply cell_fst).
    destruct (retire_case k' fr s (dw_list w) (map f (map fst (w_live (dw_list w)))) [] s' Hrw R') as (F1 & R1 & G1).
    { intros a I. rewrite <- Al in I. exact (rep_out _ _ _ _ R I). }
    { intros a [[]|Ea] I. destruct Es as [Eh _]. rewrite Eh in Ea. destruct (rep_head_out _ _ _ _ R Ea) as (_ & N & _). apply N. now rewrite Al. }
    exists (retire fr (map f (map fst (w_live (dw_list w)))) (fst s')). split; [now apply wf_clear|]. split; [exact Inj|]. split; [exact F1|]. split; [exact R1|].
    intros j u q I. cbn [w_gone clear] in I. apply in_app_iff in I as [I|I]; [|exact (G1 j u q I)].
    apply leaving_in in I as (L & Rr & EL & ->). assert (Lj : (j < w_made (dw_list w))%nat) by (eapply (live_lt _ j u); eauto; rewrite EL; apply in_app_iff; right; now left).
    assert (Ij : In (f j) (map f (map fst (w_live (dw_list w))))) by (apply in_map; rewrite EL, map_app; apply in_app_iff; right; now left). fold f. rewrite retire_in by exact Ij.
    destruct (id_cases to_place (dw_list w) j Hw Lj) as [(L2 & v2 & R2 & EL2 & _)|(? & ? & _ & _ & _ & NL)]; [clear L2 v2 R2 EL2|exfalso; apply NL; rewrite EL, map_app; apply in_app_iff; right; now left].
    assert (NE : Some (f j) <> d_head (snd s)). { intros Ek. symmetry in Ek. destruct (rep_head_out _ _ _ _ R Ek) as (_ & N & _). apply N. now rewrite Al. }
    pose proof R as (_ & _ & Rg). destruct He as [Eh Hz]. destruct (d_head (snd s)) as [hd|] eqn:Ehd; [|rewrite EL in Rg; destruct L; discriminate]. destruct Rg as (Rg & _).
    rewrite EL, map_app in Rg. cbn [map] in Rg. unfold cell at 2 in Rg. cbn [fst snd] in Rg. destruct (ring_node _ _ _ _ _ _ Rg) as (Vj & Nj & _). rewrite <- Nn in Nj by exact NE. rewrite <- Vn in Vj.
    destruct (node_of _ _ _ _ Nj Vj) as (n & E0 & E1 & E2). exists n. split; auto. split; auto. split; [|eapply fr0_none; [exact Hrw|]; rewrite <- Al in Ij; exact (rep_out _ _ _ _ R Ij)].
    rewrite E1, hdp_cells. destruct (first_id Rr) as [x|] eqn:Ex; cbn [to_place Rp].
    + split; auto. rewrite <- Em. eapply behind_lt; eauto.
    + rewrite <- Eh. split; congruence.
Qed.
Lemma iterate_sim k : sim know kle Rs Rp k (l_iterate (dlist_listing (St:=St) zero)) (l_iterate (dl_spec (St:=St) zero)).
Proof.
  intros k' [h hdr] w L Hs. pose proof Hs as (Em & (Eh & Hz) & fr & Hw & Inj & F0 & R & G). exists k'. split; [apply kle_refl|]. cbn [l_iterate dlist_listing dl_spec fst snd pure]. unfold Iterate. rewrite bind_hget. cbn [fst snd] in Eh, Hz. unfold exists_end.
  destruct (d_head hdr) as [hd|] eqn:Ed; cbn [is_nil negb].
  - destruct (rep_head_out _ _ _ _ R Ed) as (_ & _ & Rg). destruct (ring_ahead _ _ _ Rg) as [N _]. cbn [fst] in N. rewrite (ld_next_ok _ _ _ _ N). cbn [fst snd]. split; [exact Hs|]. rewrite <- Eh in Hz. destruct (dw_end w); [|contradiction].
    rewrite hdp_cells. destruct (first_id (w_live (dw_list w))) as [j|] eqn:Ej; cbn [to_place Rp]; [split; auto; rewrite <- Em; now apply first_lt|]. rewrite <- Eh. split; congruence.
  - cbn [ret fst snd]. split; [exact Hs|]. rewrite <- Eh in Hz. destruct (dw_end w); [contradiction|]. reflexivity.
Qed.
(** The end's node. *)
Lemma end_node k h hdr w : Rs k (h, hdr) w -> snd k <> None -> exists hd n z, snd k = Some hd /\ d_head hdr = Some hd /\ nth_error h hd = Some n /\ dw_end w = Some z /\ d_value n = z /\
  Rp k (d_next n) (to_place (first_id (w_live (dw_list w)))).
Proof.
  intros (Em & (Eh & Hz) & fr & Hw & Inj & F0 & R & G) N. cbn [fst snd] in *. destruct (snd k) as [hd|] eqn:Ek; [|congruence]. destruct (dw_end w) as [z|] eqn:Ez; [|contradiction].
  destruct (rep_head_out _ _ _ _ R Eh) as (_ & _ & Rg). destruct (ring_ahead _ _ _ Rg) as [Nx _]. cbn [fst] in Nx. destruct (node_of _ _ _ _ Nx Hz) as (n & E & E1 & E2). exists hd, n, z. split; auto. split; auto. split; auto. split; auto. split; auto.
  rewrite E1, hdp_cells. destruct (first_id (w_live (dw_list w))) as [j|] eqn:Ej; cbn [to_place Rp]; [split; auto; rewrite <- Em; now apply first_lt|]. rewrite Ek. split; congruence.
Qed.
Lemma Rp_node k k' h hdr w p q : kle k k' -> Rp k p q -> Rs k' (h, hdr) w -> q = Nowhere /\ p = None \/
  exists a n q', p = Some a /\ nth_error h a = Some n /\ dl_value q w = Ok (d_value n) /\ dl_next q w = Ok q' /\ Rp k' (d_next n) q' /\
    match q with Nowhere => False | End => snd k' = Some a | At i => (i < w_made (dw_list w))%nat /\ a = fst (fst k') i /\ snd k' <> Some a end.
Proof.
  intros L Hp Hs. apply (Rp_le _ _ _ _ L) in Hp. destruct q as [| |i]; cbn [Rp] in Hp; [left; auto|right|right].
  - destruct Hp as [-> N]. destruct (end_node _ _ _ _ Hs N) as (hd & n & z & Ek & Eh & En & Ez & Ev & Hn). exists hd, n. eexists. split; auto. split; auto. unfold dl_value, dl_next, exists_end. rewrite Ez. split; [cbn; congruence|]. split; [reflexivity|]. auto.
  - destruct Hp as [-> Li]. destruct Hs as (Em & Hs'). rewrite <- Em in Li. destruct (element _ _ _ _ _ (conj Em Hs') Li) as (n & q & En & Ev & Enx & Hn & NE). exists (fst (fst k') i), n, q. unfold dl_value, dl_next. rewrite Ev, Enx. repeat (split; auto).
Qed.
Lemma value_sim k p q : Rp k p q -> sim know kle Rs (same know) k (l_value (dlist_listing (St:=St) zero) p) (l_value (dl_spec (St:=St) zero) q).
Proof.
  intros Hp k' [h hdr] w L Hs. exists k'. split; [apply kle_refl|]. cbn [l_value dlist_listing dl_spec]. unfold Value, ld_value, pure. destruct (Rp_node _ _ _ _ _ _ _ L Hp Hs) as [[-> ->]|(a & n & q' & -> & En & Ev & _)].
  - split; [exact Hs|]. exact I.
  - unfold bind. rewrite (pload_ok _ _ _ _ En), Ev. cbn [fst snd]. split; [exact Hs|]. reflexivity.
Qed.
Lemma next_sim k p q : Rp k p q -> sim know kle Rs Rp k (l_next (dlist_listing (St:=St) zero) p) (l_next (dl_spec (St:=St) zero) q).
Proof.
  intros Hp k' [h hdr] w L Hs. exists k'. split; [apply kle_refl|]. cbn [l_next dlist_listing dl_spec]. unfold MoveToNext, ld_next, pure. destruct (Rp_node _ _ _ _ _ _ _ L Hp Hs) as [[-> ->]|(a & n & q' & -> & En & _ & Ex & Hn & _)].
  - split; [exact Hs|]. exact I.
  - unfold bind. rewrite (pload_ok _ _ _ _ En), Ex. cbn [fst snd]. split; [exact Hs|]. exact Hn.
Qed.
Lemma pointer_sim k p q : Rp k p q -> sim know kle Rs (same know) k (l_pointer (dlist_listing (St:=St) zero) p) (l_pointer (dl_spec (St:=St) zero) q).
Proof.
  intros Hp k' [h hdr] w L Hs. exists k'. split; [apply kle_refl|]. cbn [l_pointer dlist_listing dl_spec]. destruct (Rp_node _ _ _ _ _ _ _ L Hp Hs) as [[-> ->]|(a & n & q' & -> & En & _ & _ & _ & Hq)].
  - split; [exact Hs|]. exact I.
  - unfold bind. rewrite (pload_ok _ _ _ _ En). destruct q as [| |i]; [destruct Hq| |]; cbn [ret fst snd]; (split; [exact Hs|]); reflexivity.
Qed.
Lemma more_sim k p q : Rp k p q -> sim know kle Rs (same know) k (l_more (dlist_listing (St:=St) zero) p) (l_more (dl_spec (St:=St) zero) q).
Proof.
  intros Hp k' [h hdr] w L Hs. exists k'. split; [apply kle_refl|]. cbn [l_more dlist_listing dl_spec]. unfold IsNotEnd, pure. rewrite bind_hget. cbn [ret fst snd]. split; [exact Hs|]. red.
  pose proof Hs as (Em & (Eh & Hz) & _). cbn [fst snd] in Eh, Hz. destruct (Rp_node _ _ _ _ _ _ _ L Hp Hs) as [[-> ->]|(a & n & q' & -> & En & _ & _ & _ & Hq)].
  - unfold exists_end. rewrite Eh. destruct (snd k') as [hd|], (dw_end w); try contradiction; reflexivity.
  - destruct q as [| |i]; [destruct Hq| |].
    + rewrite Eh, Hq, peqb_refl. reflexivity.
    + destruct Hq as (_ & _ & NE). rewrite Eh. destruct (snd k') as [hd|]; [rewrite peqb_ne by congruence|]; reflexivity.
Qed.
(** Writing a value. *)
Definition put (a : nat) (v : T) (c : nat * T) : nat * T := if Nat.eqb (fst c) a then (fst c, v) else c.
Lemma put_addrs a v l : addrs (map (put a v) l) = addrs l.
Proof. unfold addrs. rewrite map_map. apply map_ext. intros c. unfold put. now destruct (Nat.eqb (fst c) a). Qed.
Lemma put_lst a v l : forall x, lst x (map (put a v) l) = lst x l.
Proof. induction l as [|[c u] l IH]; intros x; cbn; auto. unfold put at 1. cbn [fst]. destruct (Nat.eqb c a); apply IH. Qed.
Lemma rep_sv fr l h hdr a v : rep fr l (h, hdr) -> (a < length h)%nat -> fr a = None -> rep fr (map (put a v) l) (sv a v h, hdr).
Proof.
  intros (K & En & R) La Na. cbn [fst snd] in *. split; [now apply keeps_sv|]. cbn [fst snd]. split; [unfold zlen in *; now rewrite map_length|]. destruct (d_head hdr) as [hd|]; [|now subst l].
  destruct R as ((O & N & Pv & ND) & LB). unfold ring. rewrite put_addrs, put_lst, nxt_sv, prv_sv. split; auto. split; auto.
  clear - O La. revert hd O. induction l as [|[c u] l IH]; intros hd O; [exact I|]. destruct O as (O1 & O2 & O3 & O4). cbn [map]. unfold put at 1. cbn [fst]. specialize (IH c O4). destruct (Nat.eqb_spec c a) as [->|N]; cbn [open]; rewrite nxt_sv, prv_sv, val_sv by auto.
  - rewrite Nat.eqb_refl. auto.
  - rewrite eqb_ne by auto. auto.
Qed.
Lemma put_out a v l : ~ In a (addrs l) -> map (put a v) l = l.
Proof. intros N. rewrite <- (map_id l) at 2. apply map_ext_in. intros c I. unfold put. destruct (Nat.eqb_spec (fst c) a) as [<-|]; auto. exfalso. apply N. now apply (in_map fst). Qed.
Lemma put_write f n i v l : injf f n -> (i < n)%nat -> Forall (fun e => (fst e < n)%nat) l -> map (put (f i) v) (map (cell f) l) = map (cell f) (map (write i v) l).
Proof.
  intros Inj Li F. rewrite !map_map. apply map_ext_in. intros [j u] I. rewrite Forall_forall in F. specialize (F _ I). cbn in F. unfold put, write, cell. cbn [fst snd]. destruct (Nat.eqb_spec j i) as [->|N].
  - now rewrite Nat.eqb_refl.
  - destruct (Nat.eqb_spec (f j) (f i)) as [E|]; auto. exfalso. apply N. apply Inj; auto.
Qed.
Lemma store_sim k p q v : Rp k p q -> sim know kle Rs (same know) k (l_store (dlist_listing (St:=St) zero) p v) (l_store (dl_spec (St:=St) zero) q v).
Proof.
  intros Hp k' [h hdr] w L Hs. exists k'. split; [apply kle_refl|]. cbn [l_store dlist_listing dl_spec]. unfold Pointer_store. pose proof Hs as (Em & (Eh & Hz) & fr & Hrw). pose proof Hrw as (Hw & Inj & F0 & R & G). cbn [fst snd] in Eh, Hz.
  destruct (Rp_node _ _ _ _ _ _ _ L Hp Hs) as [[-> ->]|(a & n & q' & -> & En & Ev & Enx & Hn & Hq)].
  - cbn [dl_store]. split; [exact Hs|]. exact I.
  - assert (La := nth_lt _ _ _ En). rewrite (st_value_ok _ _ _ _ La). cbn [fst snd]. destruct q as [| |i]; [destruct Hq| |]; cbn [dl_store fst snd].
    + rewrite Hq in Eh. split; [|reflexivity]. split; [exact Em|]. split; [split; [now rewrite Hq|rewrite Hq; cbn [dw_end fst]; rewrite val_sv, Nat.eqb_refl; auto]|]. exists fr. split; [exact Hw|]. split; [exact Inj|]. split; [exact F0|]. split; [|exact G].
      destruct (rep_head_out _ _ _ _ R Eh) as (Nf & Ni & _). cbn [dw_list]. rewrite <- (put_out a v (map (cell (fst (fst k'))) (w_live (dw_list w)))) by exact Ni. now apply rep_sv.
    + split; [|reflexivity]. destruct Hq as (Li & -> & NE). set (f := fst (fst k')) in *. split; [exact Em|]. split.
      { split; [exact Eh|]. cbn [dw_end on_world fst]. destruct (snd k') as [hd|]; auto. destruct (dw_end w) as [z|]; auto. rewrite val_sv by auto. rewrite eqb_ne by congruence. exact Hz. }
      cbn [on_world dw_list]. destruct (id_cases to_place (dw_list w) i Hw Li) as [(L0 & v0 & Rr & El & _ & _ & NG)|(v0 & q & I & Ev' & En' & NL)].
      * exists fr. split; [now apply wf_store|]. split; [exact Inj|]. split; [exact F0|]. cbn [store w_live w_gone]. fold f. split.
        -- rewrite <- (put_write f (w_made (dw_list w))); auto; [|now apply live_forall]. apply rep_sv; auto. apply (rep_out _ _ _ _ R). unfold addrs. rewrite cell_fst. apply in_map. rewrite El, map_app. apply in_app_iff. right. now left.
        -- unfold Gone. cbn [w_gone store]. rewrite write_gone by exact NG. exact G.
      * destruct (G i v0 q I) as (n0 & Ei & E1 & E2 & E0). fold f in Ei, E0. assert (n0 = n) by (pose proof (rep_keeps _ _ _ R _ _ Ei) as K; cbn [fst] in K; congruence). subst n0.
        assert (Na : ~ In (f i) (addrs (map (cell f) (w_live (dw_list w))))) by (intros Ia; apply (rep_out _ _ _ _ R) in Ia; congruence).
        assert (R2 : rep (fun x => if Nat.eqb x (f i) then None else fr x) (map (cell f) (w_live (dw_list w))) (sv (f i) v h, hdr)).
        { rewrite <- (put_out (f i) v (map (cell f) (w_live (dw_list w)))) by exact Na. apply rep_sv; [|auto|now rewrite Nat.eqb_refl]. eapply rep_reframe; [exact R|intros x m; destruct (Nat.eqb x (f i)); [discriminate|apply (rep_keeps _ _ _ R)]|].
          intros x Hx. destruct (Nat.eqb x (f i)); auto. destruct Hx as [Ix|Ex]; [exact (rep_out _ _ _ _ R Ix)|exact (proj1 (rep_head_out _ _ _ _ R Ex))]. }
        exists (fun x => if Nat.eqb x (f i) then Some (set_d_value v n) else fr x). split; [now apply wf_store|]. split; [exact Inj|]. split; [|split].
        -- intros x m Ex. destruct (Nat.eqb_spec x (f i)) as [->|]; auto. congruence.
        -- cbn [store w_live]. rewrite write_other by exact NL. fold f. eapply rep_reframe; [exact R2| |].
           ++ intros x m. cbn [fst]. destruct (Nat.eqb_spec x (f i)) as [->|Nx].
              ** intros [= <-]. unfold sv. rewrite En. now apply nth_error_upd_eq.
              ** intros Ex. unfold sv. rewrite En. rewrite nth_error_upd_ne by auto. exact (rep_keeps _ _ _ R _ _ Ex).
           ++ cbn [snd]. intros x Hx. destruct (Nat.eqb_spec x (f i)) as [->|Nx].
              ** exfalso. destruct Hx as [Ix|Ex]; [auto|]. rewrite Eh in Ex. congruence.
              ** destruct Hx as [Ix|Ex]; [exact (rep_out _ _ _ _ R Ix)|exact (proj1 (rep_head_out _ _ _ _ R Ex))].
        -- intros j x q2 Ij. cbn [w_gone store] in Ij. apply in_map_iff in Ij as ([[j' x'] q''] & Ee & Ij). cbn [fst snd] in Ee. unfold write in Ee. cbn [fst snd] in Ee.
           assert (Lj := gone_lt _ _ _ _ Hw Ij). destruct (G j' x' q'' Ij) as (m & Ej & V2 & P2 & E0'). fold f in Ej, E0'. fold f.
           destruct (Nat.eqb_spec j' i) as [->|Nj]; injection Ee as <- <- <-.
           ++ rewrite Nat.eqb_refl. exists (set_d_value v n). split; auto. split; auto. split; auto. assert (m = n) by congruence. subst m. exact P2.
           ++ destruct (Nat.eqb_spec (f j') (f i)) as [Eij|]; [exfalso; apply Nj; now apply Inj|]. exists m. auto.
Qed.
Lemma dlist_sims : sims (dlist_listing (St:=St) zero) (dl_spec zero) know kle Rs Rp.
Proof. constructor; intros; [apply call_sim|apply iterate_sim|now apply pointer_sim|now apply more_sim|now apply next_sim|now apply value_sim|now apply store_sim]. Qed.
End D.
(** The zero DList. *)
Lemma Rs_init {T} (h0 : list (dnode T)) : Rs (nth_error h0) ((fun i => i), O, None) (h0, empty_dlist) dw_empty.
Proof.
  split; auto. split; [split; auto; exact I|]. exists (nth_error h0). split; [apply wf_empty|]. split; [intros i j L; cbn in L; lia|]. split; auto. split; [|intros i v q []].
  cbn. unfold rep. cbn. repeat split; auto. apply keeps_refl.
Qed.
Lemma Rs_keeps {T} (fr0 : nat -> option (dnode T)) k s w : Rs fr0 k s w -> keeps fr0 (fst s).
Proof. intros (_ & _ & fr & _ & _ & F & R & _) a n E. apply (rep_keeps _ _ _ R), F, E. Qed.
