From Verif Require Import BaseLemmas Spec Trace Spec_List Nodes Proof_Nodes Model_DList.
From Verif Require Proof_SList.
Set Default Proof Using "Type".
Local Arguments zlen : simpl never. Local Arguments pload : simpl never. Local Arguments pmod : simpl never.

Section D.
Context {T : Type}.
Variable zero : T.
Notation heap := (list (dnode T)).
Notation cells := (list (nat * T)).
Implicit Types (fr : nat -> option (dnode T)) (h : heap) (l : cells) (hdr : dlist).

(** *** Views of the heap *)
Definition nxt h a : option ptr := option_map d_next (nth_error h a).
Definition prv h a : option ptr := option_map d_prev (nth_error h a).
Definition val h a : option T := option_map d_value (nth_error h a).
Definition sn (a : nat) (q : ptr) h : heap := match nth_error h a with Some n => upd a (set_d_next q n) h | None => h end.
Definition sp (a : nat) (q : ptr) h : heap := match nth_error h a with Some n => upd a (set_d_prev q n) h | None => h end.
Definition sv (a : nat) (v : T) h : heap := match nth_error h a with Some n => upd a (set_d_value v n) h | None => h end.

Lemma nxt_lt h a p : nxt h a = Some p -> (a < length h)%nat.
Proof. unfold nxt. destruct (nth_error h a) eqn:E; [|discriminate]. intros _. now apply nth_lt in E. Qed.
Lemma prv_lt h a p : prv h a = Some p -> (a < length h)%nat.
Proof. unfold prv. destruct (nth_error h a) eqn:E; [|discriminate]. intros _. now apply nth_lt in E. Qed.
Lemma val_lt h a p : val h a = Some p -> (a < length h)%nat.
Proof. unfold val. destruct (nth_error h a) eqn:E; [|discriminate]. intros _. now apply nth_lt in E. Qed.

Lemma lt_nth h a : (a < length h)%nat -> exists n, nth_error h a = Some n.
Proof. intros L. destruct (nth_error h a) eqn:E; eauto. apply nth_error_None in E. lia. Qed.
Lemma len_sn a q h : length (sn a q h) = length h.
Proof. unfold sn. destruct (nth_error h a); auto. apply upd_length. Qed.
Lemma len_sp a q h : length (sp a q h) = length h.
Proof. unfold sp. destruct (nth_error h a); auto. apply upd_length. Qed.
Lemma len_sv a q h : length (sv a q h) = length h.
Proof. unfold sv. destruct (nth_error h a); auto. apply upd_length. Qed.

Lemma view_upd {A} (f : dnode T -> A) h a n m x : nth_error h a = Some n -> f m = f n ->
  option_map f (nth_error (upd a m h) x) = option_map f (nth_error h x).
Proof.
  intros E F. rewrite nth_upd by (now apply nth_lt in E). destruct (Nat.eqb_spec a x); subst; auto. rewrite E. cbn. now rewrite F.
Qed.
Lemma nxt_sn a q h x : (a < length h)%nat -> nxt (sn a q h) x = if Nat.eqb a x then Some q else nxt h x.
Proof.
  intros L. destruct (lt_nth h a L) as [n E]. unfold sn, nxt. rewrite E, nth_upd by auto. destruct (Nat.eqb a x); auto.
Qed.
Lemma nxt_sp a q h x : nxt (sp a q h) x = nxt h x.
Proof. unfold nxt, sp. destruct (nth_error h a) as [n|] eqn:E; auto. now apply (view_upd _ h a n). Qed.
Lemma nxt_sv a q h x : nxt (sv a q h) x = nxt h x.
Proof. unfold nxt, sv. destruct (nth_error h a) as [n|] eqn:E; auto. now apply (view_upd _ h a n). Qed.
Lemma prv_sp a q h x : (a < length h)%nat -> prv (sp a q h) x = if Nat.eqb a x then Some q else prv h x.
Proof.
  intros L. destruct (lt_nth h a L) as [n E]. unfold sp, prv. rewrite E, nth_upd by auto. destruct (Nat.eqb a x); auto.
Qed.
Lemma prv_sn a q h x : prv (sn a q h) x = prv h x.
Proof. unfold prv, sn. destruct (nth_error h a) as [n|] eqn:E; auto. now apply (view_upd _ h a n). Qed.
Lemma prv_sv a q h x : prv (sv a q h) x = prv h x.
Proof. unfold prv, sv. destruct (nth_error h a) as [n|] eqn:E; auto. now apply (view_upd _ h a n). Qed.
Lemma val_sv a q h x : (a < length h)%nat -> val (sv a q h) x = if Nat.eqb a x then Some q else val h x.
Proof.
  intros L. destruct (lt_nth h a L) as [n E]. unfold sv, val. rewrite E, nth_upd by auto. destruct (Nat.eqb a x); auto.
Qed.
Lemma val_sn a q h x : val (sn a q h) x = val h x.
Proof. unfold val, sn. destruct (nth_error h a) as [n|] eqn:E; auto. now apply (view_upd _ h a n). Qed.
Lemma val_sp a q h x : val (sp a q h) x = val h x.
Proof. unfold val, sp. destruct (nth_error h a) as [n|] eqn:E; auto. now apply (view_upd _ h a n). Qed.
Lemma nth_new h n x : nth_error (h ++ [n]) x = if Nat.eqb (length h) x then Some n else nth_error h x.
Proof.
  destruct (Nat.eqb_spec (length h) x) as [<-|NE]; [apply nth_app_new|].
  destruct (Nat.lt_ge_cases x (length h)); [now apply nth_error_app1|].
  transitivity (@None (dnode T)); [|symmetry; now apply nth_error_None]. apply nth_error_None. rewrite app_length. cbn. lia.
Qed.
Lemma nxt_new h n x : nxt (h ++ [n]) x = if Nat.eqb (length h) x then Some (d_next n) else nxt h x.
Proof. unfold nxt. rewrite nth_new. destruct (Nat.eqb (length h) x); auto. Qed.
Lemma prv_new h n x : prv (h ++ [n]) x = if Nat.eqb (length h) x then Some (d_prev n) else prv h x.
Proof. unfold prv. rewrite nth_new. destruct (Nat.eqb (length h) x); auto. Qed.
Lemma val_new h n x : val (h ++ [n]) x = if Nat.eqb (length h) x then Some (d_value n) else val h x.
Proof. unfold val. rewrite nth_new. destruct (Nat.eqb (length h) x); auto. Qed.

Lemma keeps_sn fr h a q : keeps fr h -> fr a = None -> keeps fr (sn a q h).
Proof. unfold sn. destruct (nth_error h a); auto. apply keeps_upd. Qed.
Lemma keeps_sp fr h a q : keeps fr h -> fr a = None -> keeps fr (sp a q h).
Proof. unfold sp. destruct (nth_error h a); auto. apply keeps_upd. Qed.
Lemma keeps_sv fr h a q : keeps fr h -> fr a = None -> keeps fr (sv a q h).
Proof. unfold sv. destruct (nth_error h a); auto. apply keeps_upd. Qed.

Lemma ld_next_ok h hdr a p : nxt h a = Some p -> ld_next (Some a) (h, hdr) = (Ok p, (h, hdr)).
Proof. unfold nxt, ld_next, bind. destruct (nth_error h a) as [n|] eqn:E; [|discriminate]. intros [= <-]. now rewrite (pload_ok _ _ _ _ E). Qed.
Lemma ld_prev_ok h hdr a p : prv h a = Some p -> ld_prev (Some a) (h, hdr) = (Ok p, (h, hdr)).
Proof. unfold prv, ld_prev, bind. destruct (nth_error h a) as [n|] eqn:E; [|discriminate]. intros [= <-]. now rewrite (pload_ok _ _ _ _ E). Qed.
Lemma ld_value_ok h hdr a p : val h a = Some p -> ld_value (Some a) (h, hdr) = (Ok p, (h, hdr)).
Proof. unfold val, ld_value, bind. destruct (nth_error h a) as [n|] eqn:E; [|discriminate]. intros [= <-]. now rewrite (pload_ok _ _ _ _ E). Qed.
Lemma st_next_ok h hdr a q : (a < length h)%nat -> st_next (Some a) q (h, hdr) = (Ok tt, (sn a q h, hdr)).
Proof. intros L. destruct (lt_nth h a L) as [n E]. unfold st_next, sn. rewrite E. now apply pmod_ok. Qed.
Lemma st_prev_ok h hdr a q : (a < length h)%nat -> st_prev (Some a) q (h, hdr) = (Ok tt, (sp a q h, hdr)).
Proof. intros L. destruct (lt_nth h a L) as [n E]. unfold st_prev, sp. rewrite E. now apply pmod_ok. Qed.
Lemma st_value_ok h hdr a q : (a < length h)%nat -> st_value (Some a) q (h, hdr) = (Ok tt, (sv a q h, hdr)).
Proof. intros L. destruct (lt_nth h a L) as [n E]. unfold st_value, sv. rewrite E. now apply pmod_ok. Qed.

(** *** The ring *)
Definition addrs l : list nat := map fst l.
Fixpoint open h (a : nat) l : Prop :=
  match l with
  | [] => True
  | (c, v) :: l' => nxt h a = Some (Some c) /\ prv h c = Some (Some a) /\ val h c = Some v /\ open h c l'
  end.
Fixpoint lst (a : nat) l : nat := match l with [] => a | (c, _) :: l' => lst c l' end.
Definition hdp (b : nat) l : nat := match l with [] => b | (c, _) :: _ => c end.
Definition ring h hd l : Prop := open h hd l /\ nxt h (lst hd l) = Some (Some hd) /\ prv h hd = Some (Some (lst hd l)) /\ NoDup (hd :: addrs l).

Definition rep fr l (s : heap * dlist) : Prop :=
  keeps fr (fst s) /\ d_length (snd s) = zlen l /\
  match d_head (snd s) with
  | None => l = []
  | Some hd => ring (fst s) hd l /\ (forall a, In a (hd :: addrs l) -> fr a = None)
  end.

Lemma addrs_app l k : addrs (l ++ k) = addrs l ++ addrs k.
Proof. apply map_app. Qed.
Lemma lst_app a l k : lst a (l ++ k) = lst (lst a l) k.
Proof. revert a. induction l as [|[c v] l IH]; intros a; cbn; auto. Qed.
Lemma lst_in a l : In (lst a l) (a :: addrs l).
Proof. revert a. induction l as [|[c v] l IH]; intros a; [now left|]. right. exact (IH c). Qed.
Lemma lst_nin a l : NoDup (a :: addrs l) -> l <> [] -> lst a l <> a.
Proof.
  intros ND NE. destruct l as [|[c v] l]; [congruence|]. cbn. intros E. apply NoDup_cons_iff in ND as [NI _]. apply NI. rewrite <- E. apply (lst_in c l).
Qed.
Lemma open_app h l k : forall a, open h a (l ++ k) <-> open h a l /\ open h (lst a l) k.
Proof. induction l as [|[c v] l IH]; intros a; cbn; [tauto|]. rewrite IH. tauto. Qed.
Lemma open_first h b l : forall a, open h a l -> nxt h (lst a l) = Some (Some b) -> nxt h a = Some (Some (hdp b l)).
Proof. intros a. destruct l as [|[c v] l]; cbn; [auto|tauto]. Qed.
Lemma open_lt h l : forall a x, open h a l -> In x (addrs l) -> (x < length h)%nat.
Proof.
  induction l as [|[c v] l IH]; intros a x O I; [destruct I|]. destruct O as (_ & P & _ & O). destruct I as [<-|I]; [now apply prv_lt in P|eauto].
Qed.
Lemma ring_lt h hd l x : ring h hd l -> In x (hd :: addrs l) -> (x < length h)%nat.
Proof. intros (O & N & P & ND) [<-|I]; [now apply prv_lt in P|eapply open_lt; eauto]. Qed.

(** Only the next link of the last node may differ. *)
Lemma open_frame h h' l : forall a, open h a l -> NoDup (a :: addrs l) ->
  (forall x, In x (a :: addrs l) -> x <> lst a l -> nxt h' x = nxt h x) ->
  (forall x, In x (addrs l) -> prv h' x = prv h x) -> (forall x, In x (addrs l) -> val h' x = val h x) -> open h' a l.
Proof.
  induction l as [|[c v] l IH]; intros a O ND FN FP FV; [exact I|]. destruct O as (N & P & V & O). cbn.
  assert (ND' : NoDup (c :: addrs l)) by (now inversion ND).
  split; [|split; [|split]].
  - rewrite FN; auto; [now left|]. intros E. cbn in E. apply NoDup_cons_iff in ND as [NI _]. apply NI. rewrite E. apply (lst_in c l).
  - rewrite FP; auto. now left.
  - rewrite FV; auto. now left.
  - apply IH; auto.
    + intros x I NE. apply FN; auto. now right.
    + intros x I. apply FP. now right.
    + intros x I. apply FV. now right.
Qed.
Lemma ring_fuel h hd l : ring h hd l -> (length l < S (length h))%nat.
Proof.
  intros R. rewrite <- (map_length fst l). apply nodup_fuel; [destruct R as (_ & _ & _ & ND); now inversion ND|].
  intros a I. eapply ring_lt; eauto. now right.
Qed.

(** *** Running the primitives *)
Lemma bind_eq {S A B} (m : M S A) (k : A -> M S B) s a s' : m s = (Ok a, s') -> (x <- m ;; k x) s = k a s'.
Proof. intros E. unfold bind. now rewrite E. Qed.
Lemma bind_hget {A B} (f : dlist -> A) (k : A -> P (dnode T) dlist B) h hdr : (x <- hget f ;; k x) (h, hdr) = k (f hdr) (h, hdr).
Proof. reflexivity. Qed.
Lemma bind_hmod {B} (f : dlist -> dlist) (k : unit -> P (dnode T) dlist B) h hdr : (x <- hmod f ;; k x) (h, hdr) = k tt (h, f hdr).
Proof. reflexivity. Qed.
Lemma bind_pnew {B} n (k : ptr -> P (dnode T) dlist B) h hdr : (x <- pnew n ;; k x) (h, hdr) = k (Some (length h)) (h ++ [n], hdr).
Proof. reflexivity. Qed.
Lemma bind_IsEmpty {B} (k : bool -> P (dnode T) dlist B) h hdr : (x <- IsEmpty ;; k x) (h, hdr) = k (d_length hdr =? 0) (h, hdr).
Proof. reflexivity. Qed.
Lemma bind_fuel {B} (k : nat -> P (dnode T) dlist B) h hdr : (x <- heap_fuel ;; k x) (h, hdr) = k (S (length h)) (h, hdr).
Proof. reflexivity. Qed.
Lemma zlen_cons0 (c : nat * T) l : (zlen (c :: l) =? 0) = false.
Proof. apply Z.eqb_neq. rewrite zlen_cons. pose proof (zlen_nonneg l). lia. Qed.
Lemma eqb_ne a b : a <> b -> Nat.eqb a b = false.
Proof. apply Nat.eqb_neq. Qed.
Lemma eqb_ne2 a b : b <> a -> Nat.eqb a b = false.
Proof. intros N. apply Nat.eqb_neq. congruence. Qed.

Ltac lens := repeat first [rewrite len_sn | rewrite len_sp | rewrite len_sv | rewrite app_length]; cbn [length]; lia.
Ltac vw := repeat first
  [ rewrite nxt_sp | rewrite nxt_sv | rewrite prv_sn | rewrite prv_sv | rewrite val_sn | rewrite val_sp
  | rewrite nxt_sn by lens | rewrite prv_sp by lens | rewrite val_sv by lens
  | rewrite nxt_new | rewrite prv_new | rewrite val_new
  | rewrite Nat.eqb_refl | rewrite eqb_ne by (assumption || lia) | rewrite eqb_ne2 by (assumption || lia)
  | progress cbn [d_next d_prev d_value] ].

(** ensureHead makes the sentinel. *)
Lemma ensureHead_ok fr l s : rep fr l s -> exists h hd, ensureHead zero s = (Ok tt, (h, mkDList (Some hd) (zlen l))) /\ rep fr l (h, mkDList (Some hd) (zlen l)) /\
  (forall x, (x < length (fst s))%nat -> nth_error h x = nth_error (fst s) x) /\ (length (fst s) <= length h)%nat /\
  (d_head (snd s) = Some hd \/ d_head (snd s) = None /\ val h hd = Some zero).
Proof.
  destruct s as [h [[hd|] n]]; intros (K & En & R); cbn in K, En, R; subst n.
  - exists h, hd. split; [reflexivity|]. split; [|split; [|split]]; auto. split; auto.
  - subst l. unfold ensureHead. rewrite bind_hget. cbn [d_head is_nil]. rewrite bind_pnew, bind_hmod, bind_hget. cbn [set_d_head d_head d_length].
    set (h1 := h ++ [mkDNode None None zero]). assert (L : (length h < length h1)%nat) by (unfold h1; rewrite app_length; cbn; lia).
    rewrite (bind_eq _ _ _ _ _ (st_prev_ok h1 _ (length h) _ L)). rewrite bind_hget. cbn [set_d_head d_head].
    rewrite st_next_ok by (now rewrite len_sp). eexists _, (length h). split; [reflexivity|].
    pose proof (keeps_new _ _ K) as L0. cbn [fst snd].
    split; [|split; [|split; [|right; split; [reflexivity|unfold h1; now vw]]]].
    + split; [|split]; cbn.
      * apply keeps_sn; auto. apply keeps_sp; auto. now apply keeps_app.
      * reflexivity.
      * split; [|intros a [<-|[]]; auto]. split; [exact I|]. cbn. vw. repeat split; auto. constructor; [intros []|constructor].
    + intros x Lx. unfold sn, sp. destruct (lt_nth h1 _ L) as [n1 E1]. rewrite E1.
      destruct (nth_error (upd (length h) (set_d_prev (Some (length h)) n1) h1) (length h));
        rewrite ?nth_error_upd_ne by lia; unfold h1; now apply nth_error_app1.
    + rewrite len_sn, len_sp. unfold h1. rewrite app_length. cbn. lia.
Qed.

Lemma nodup_ne (a : nat) l x : NoDup (a :: addrs l) -> In x (addrs l) -> x <> a.
Proof. intros ND I ->. now inversion ND. Qed.

Lemma PushFront_ok fr l s v : rep fr l s -> exists s' a, PushFront zero v s = (Ok tt, s') /\ rep fr ((a, v) :: l) s'.
Proof.
  intros R0. destruct (ensureHead_ok fr l s R0) as (h & hd & E & (K & _ & R & LB) & _). clear R0. cbn [fst snd d_head] in *.
  unfold PushFront. rewrite (bind_eq _ _ _ _ _ E). clear E s. rewrite bind_hget. cbn [d_head].
  pose proof R as (O & N & Pv & ND). pose proof (open_first h hd l hd O N) as F.
  rewrite (bind_eq _ _ _ _ _ (ld_next_ok h _ hd _ F)), bind_pnew.
  set (n := length h). set (h1 := h ++ _).
  assert (NE : forall x, In x (hd :: addrs l) -> x <> n) by (intros x I; pose proof (ring_lt _ _ _ _ R I); subst n; lia).
  assert (Lhd : (hd < length h)%nat) by (eapply ring_lt; eauto; now left).
  assert (Lf : (hdp hd l < length h)%nat) by (eapply ring_lt; eauto; destruct l as [|[c w] l]; [now left|right; now left]).
  assert (hd <> n) by (apply NE; now left).
  assert (F1 : nxt h1 hd = Some (Some (hdp hd l))) by (unfold h1; rewrite nxt_new; fold n; now rewrite eqb_ne2).
  rewrite (bind_eq _ _ _ _ _ (ld_next_ok h1 _ hd _ F1)).
  assert (L1 : length h1 = S n) by (unfold h1; rewrite app_length; cbn; subst n; lia).
  rewrite (bind_eq _ _ _ _ _ (st_prev_ok h1 _ (hdp hd l) _ ltac:(rewrite L1; subst n; lia))).
  rewrite (bind_eq _ _ _ _ _ (st_next_ok _ _ hd _ ltac:(rewrite len_sp, L1; subst n; lia))).
  rewrite bind_hget. cbn [d_length]. eexists _, n. split; [reflexivity|].
  set (h2 := sp (hdp hd l) (Some n) h1). pose proof (keeps_new _ _ K) as L0.
  assert (NDn : NoDup (hd :: n :: addrs l)).
  { inversion ND as [|? ? NI ND']; subst. constructor; [intros [E|I]; [congruence|auto]|]. constructor; auto. intros I. apply (NE n); auto. now right. }
  split; [|split]; cbn [fst snd d_head d_length set_d_length].
  - apply keeps_sn; [|apply LB; now left]. apply keeps_sp; [|apply LB; destruct l as [|[c w] l]; [now left|right; now left]]. now apply keeps_app.
  - rewrite zlen_cons. lia.
  - split; [|intros a [<-|[<-|I]]; [apply LB; now left|subst n; auto|apply LB; now right]].
    unfold ring. cbn [addrs map fst open lst]. unfold h2. unfold h1 in *. destruct l as [|[c w] l'].
    + cbn [hdp lst open] in *. vw. repeat split; auto.
    + cbn [hdp lst open addrs map fst] in *. destruct O as (_ & _ & Vc & O).
      assert (c <> n) by (apply NE; right; now left). assert (c <> hd) by (apply (nodup_ne hd ((c, w) :: l')); auto; now left).
      assert (Hl : In (lst c l') (c :: addrs l')) by apply lst_in.
      assert (lst c l' <> n) by (apply NE; right; auto). assert (lst c l' <> hd) by (apply (nodup_ne hd ((c, w) :: l')); auto).
      vw. repeat split; auto.
      apply open_frame with (h := h); auto.
      * now inversion ND.
      * intros x I _. assert (x <> n) by (apply NE; now right). assert (x <> hd) by (apply (nodup_ne hd ((c, w) :: l')); auto). now vw.
      * intros x I. assert (x <> n) by (apply NE; right; now right). assert (x <> c) by (apply (nodup_ne c l'); auto; now inversion ND). now vw.
      * intros x I. assert (x <> n) by (apply NE; right; now right). now vw.
Qed.

Lemma PushBack_ok fr l s v : rep fr l s -> exists s' a, PushBack zero v s = (Ok tt, s') /\ rep fr (l ++ [(a, v)]) s'.
Proof.
  intros R0. destruct (ensureHead_ok fr l s R0) as (h & hd & E & (K & _ & R & LB) & _). clear R0. cbn [fst snd d_head] in *.
  unfold PushBack. rewrite (bind_eq _ _ _ _ _ E). clear E s. rewrite bind_hget. cbn [d_head].
  pose proof R as (O & N & Pv & ND).
  rewrite (bind_eq _ _ _ _ _ (ld_prev_ok h _ hd _ Pv)), bind_pnew.
  set (n := length h). set (h1 := h ++ _). set (m := lst hd l) in *.
  assert (NE : forall x, In x (hd :: addrs l) -> x <> n) by (intros x I; pose proof (ring_lt _ _ _ _ R I); subst n; lia).
  assert (Lhd : (hd < length h)%nat) by (eapply ring_lt; eauto; now left).
  assert (Im : In m (hd :: addrs l)) by apply lst_in.
  assert (Lm : (m < length h)%nat) by (eapply ring_lt; eauto).
  assert (hd <> n) by (apply NE; now left). assert (m <> n) by (now apply NE).
  assert (L1 : length h1 = S n) by (unfold h1; rewrite app_length; cbn; subst n; lia).
  assert (F1 : prv h1 hd = Some (Some m)) by (unfold h1; rewrite prv_new; fold n; now rewrite eqb_ne2).
  rewrite (bind_eq _ _ _ _ _ (ld_prev_ok h1 _ hd _ F1)).
  rewrite (bind_eq _ _ _ _ _ (st_next_ok h1 _ m _ ltac:(rewrite L1; subst n; lia))).
  rewrite (bind_eq _ _ _ _ _ (st_prev_ok _ _ hd _ ltac:(rewrite len_sn, L1; subst n; lia))).
  rewrite bind_hget. cbn [d_length]. eexists _, n. split; [reflexivity|]. pose proof (keeps_new _ _ K) as L0.
  split; [|split]; cbn [fst snd d_head d_length set_d_length].
  - apply keeps_sp; [|apply LB; now left]. apply keeps_sn; [|now apply LB]. now apply keeps_app.
  - rewrite zlen_app. reflexivity.
  - split; [|rewrite addrs_app; intros a [<-|I]; [apply LB; now left|]; apply in_app_iff in I as [I|[<-|[]]]; [apply LB; now right|subst n; auto]].
    unfold ring. rewrite open_app, lst_app. fold m. cbn [lst open]. unfold h1 in *. vw. split; [split|].
    + apply open_frame with (h := h); auto.
      * intros x I NEm. fold m in NEm. assert (x <> n) by (now apply NE). now vw.
      * intros x I. assert (x <> n) by (apply NE; now right). assert (x <> hd) by (now apply (nodup_ne hd l)). now vw.
      * intros x I. assert (x <> n) by (apply NE; now right). now vw.
    + auto.
    + split; auto. split; auto. rewrite addrs_app. apply Permutation_NoDup with (n :: hd :: addrs l).
      * rewrite app_comm_cons. apply Permutation_cons_append.
      * constructor; auto. intros I. now apply (NE n).
Qed.

(** Popping also unlinks the node. *)
Lemma TryPopFront_ok fr c v l s : rep fr ((c, v) :: l) s -> exists s', TryPopFront zero s = (Ok (v, true), s') /\ rep fr l s' /\
  d_head (snd s') = d_head (snd s) /\ nxt (fst s') c = Some None /\ val (fst s') c = Some v.
Proof.
  destruct s as [h [[hd|] k]]; intros (K & En & R); cbn [fst snd d_head d_length] in *; [|discriminate]. destruct R as (R & LB). subst k.
  unfold TryPopFront. rewrite bind_IsEmpty. cbn [d_length]. rewrite zlen_cons0, bind_hget. cbn [d_head].
  pose proof R as (O & N & Pv & ND). cbn [lst] in N, Pv. destruct O as (Nh & Pc & Vc & O). pose proof (open_first h hd l c O N) as F.
  assert (Lhd : (hd < length h)%nat) by (eapply ring_lt; eauto; now left).
  assert (Lc : (c < length h)%nat) by (eapply ring_lt; eauto; right; now left).
  assert (Lm : (hdp hd l < length h)%nat) by (eapply ring_lt; eauto; destruct l as [|[d w] l]; [now left|right; right; now left]).
  assert (c <> hd) by (apply (nodup_ne hd ((c, v) :: l)); auto; now left).
  rewrite (bind_eq _ _ _ _ _ (ld_next_ok h _ hd _ Nh)), (bind_eq _ _ _ _ _ (ld_value_ok h _ c _ Vc)), (bind_eq _ _ _ _ _ (ld_next_ok h _ c _ F)).
  rewrite (bind_eq _ _ _ _ _ (st_next_ok h _ hd _ Lhd)).
  erewrite bind_eq; [|apply ld_next_ok; vw; reflexivity].
  erewrite bind_eq; [|apply st_prev_ok; lens].
  erewrite bind_eq; [|apply st_prev_ok; lens].
  erewrite bind_eq; [|apply st_next_ok; lens].
  rewrite bind_hget, bind_hmod. eexists. split; [reflexivity|]. unfold rep. cbn [fst snd d_head d_length set_d_length].
  split; [|split; [reflexivity|split; [now vw|now vw]]].
  split; [|split].
  - repeat first [apply keeps_sn | apply keeps_sp]; auto; apply LB; try (now left); try (right; now left).
    destruct l as [|[d w] l]; [now left|right; right; now left].
  - rewrite zlen_cons. lia.
  - split; [|intros a [<-|I]; apply LB; [now left|right; now right]].
    assert (ND' : NoDup (hd :: addrs l)) by (inversion ND as [|? ? NI ND1]; subst; inversion ND1; subst; constructor; auto; intros I; apply NI; now right).
    unfold ring. destruct l as [|[d w] l'].
    + cbn [hdp lst open addrs map] in *. vw. auto.
    + cbn [hdp lst open addrs map fst] in *. destruct O as (_ & _ & Vd & O).
      assert (d <> hd) by (apply (nodup_ne hd ((d, w) :: l')); auto; now left).
      assert (NDc : NoDup (c :: addrs ((d, w) :: l'))) by (now inversion ND).
      assert (d <> c) by (apply (nodup_ne c ((d, w) :: l')); auto; now left).
      assert (Hl : In (lst d l') (d :: addrs l')) by apply lst_in.
      assert (lst d l' <> hd) by (apply (nodup_ne hd ((d, w) :: l')); auto). assert (lst d l' <> c) by (apply (nodup_ne c ((d, w) :: l')); auto).
      vw. repeat split; auto. apply open_frame with (h := h); auto.
      * now inversion ND'.
      * intros x I _. assert (x <> hd) by (apply (nodup_ne hd ((d, w) :: l')); auto). assert (x <> c) by (apply (nodup_ne c ((d, w) :: l')); auto). now vw.
      * intros x I. assert (x <> d) by (apply (nodup_ne d l'); auto; now inversion ND'). assert (x <> c) by (apply (nodup_ne c ((d, w) :: l')); auto; now right). now vw.
      * intros x I. now vw.
Qed.

Lemma nodup_snoc (a : nat) l c v : NoDup (a :: addrs (l ++ [(c, v)])) -> NoDup (a :: addrs l) /\ ~ In c (a :: addrs l).
Proof.
  rewrite addrs_app. cbn [addrs map fst]. rewrite app_comm_cons. intros ND. apply (Permutation_NoDup (Permutation_sym (Permutation_cons_append _ _))) in ND.
  inversion ND; auto.
Qed.
Lemma TryPopBack_ok fr c v l s : rep fr (l ++ [(c, v)]) s -> exists s', TryPopBack zero s = (Ok (v, true), s') /\ rep fr l s' /\
  d_head (snd s') = d_head (snd s) /\ nxt (fst s') c = Some None /\ val (fst s') c = Some v.
Proof.
  destruct s as [h [[hd|] k]]; intros (K & En & R); cbn [fst snd d_head d_length] in *; [|destruct l; discriminate]. destruct R as (R & LB). subst k.
  unfold TryPopBack. rewrite bind_IsEmpty. cbn [d_length].
  assert ((zlen (l ++ [(c, v)]) =? 0) = false) as -> by (apply Z.eqb_neq; rewrite zlen_app; change (zlen [(c, v)]) with 1; pose proof (zlen_nonneg l); lia).
  rewrite bind_hget. cbn [d_head].
  pose proof R as (O & N & Pv & ND). rewrite lst_app in N, Pv. cbn [lst] in N, Pv. apply open_app in O as [O (Nm & Pc & Vc & _)]. set (m := lst hd l) in *.
  destruct (nodup_snoc _ _ _ _ ND) as [ND' NIc].
  assert (Lhd : (hd < length h)%nat) by (eapply ring_lt; eauto; now left).
  assert (Ic : In c (hd :: addrs (l ++ [(c, v)]))) by (right; rewrite addrs_app; apply in_app_iff; right; now left).
  assert (Lc : (c < length h)%nat) by (eapply ring_lt; eauto).
  assert (Im : In m (hd :: addrs l)) by apply lst_in.
  assert (Im' : In m (hd :: addrs (l ++ [(c, v)]))) by (rewrite addrs_app; destruct Im as [<-|Im]; [now left|right; apply in_app_iff; auto]).
  assert (Lm : (m < length h)%nat) by (eapply ring_lt; eauto).
  assert (c <> hd) by (intros ->; apply NIc; now left). assert (c <> m) by (intros ->; now apply NIc).
  rewrite (bind_eq _ _ _ _ _ (ld_prev_ok h _ hd _ Pv)), (bind_eq _ _ _ _ _ (ld_value_ok h _ c _ Vc)), (bind_eq _ _ _ _ _ (ld_prev_ok h _ hd _ Pv)), (bind_eq _ _ _ _ _ (ld_prev_ok h _ c _ Pc)).
  rewrite (bind_eq _ _ _ _ _ (st_prev_ok h _ hd _ Lhd)).
  erewrite bind_eq; [|apply ld_prev_ok; vw; reflexivity].
  erewrite bind_eq; [|apply st_next_ok; lens].
  erewrite bind_eq; [|apply st_prev_ok; lens].
  erewrite bind_eq; [|apply st_next_ok; lens].
  rewrite bind_hget, bind_hmod. eexists. split; [reflexivity|]. unfold rep. cbn [fst snd d_head d_length set_d_length].
  split; [|split; [reflexivity|split; [now vw|now vw]]].
  split; [|split].
  - repeat first [apply keeps_sn | apply keeps_sp]; auto. apply LB. now left.
  - rewrite zlen_app. change (zlen [(c, v)]) with 1. lia.
  - split; [|intros a [<-|I]; apply LB; [now left|right; rewrite addrs_app; apply in_app_iff; auto]].
    unfold ring. fold m. vw. repeat split; auto. apply open_frame with (h := h); auto.
    + intros x I NEm. fold m in NEm. assert (x <> c) by (intros ->; now apply NIc). now vw.
    + intros x I. assert (x <> c) by (intros ->; apply NIc; now right). assert (x <> hd) by (now apply (nodup_ne hd l)). now vw.
    + intros x I. now vw.
Qed.

Lemma empty_head fr s : rep fr [] s -> d_length (snd s) = 0.
Proof. intros (_ & En & _). exact En. Qed.
Lemma TryPopFront_empty fr s : rep fr [] s -> TryPopFront zero s = (Ok (zero, false), s).
Proof. destruct s as [h hdr]. intros R. apply empty_head in R. cbn in R. unfold TryPopFront. rewrite bind_IsEmpty, R. reflexivity. Qed.
Lemma TryPopBack_empty fr s : rep fr [] s -> TryPopBack zero s = (Ok (zero, false), s).
Proof. destruct s as [h hdr]. intros R. apply empty_head in R. cbn in R. unfold TryPopBack. rewrite bind_IsEmpty, R. reflexivity. Qed.

Lemma Clear_ok fr l s : rep fr l s -> exists s', Clear s = (Ok tt, s') /\ rep fr [] s' /\
  d_head (snd s') = d_head (snd s) /\ length (fst s') = length (fst s) /\ (forall x, Some x <> d_head (snd s) -> nxt (fst s') x = nxt (fst s) x) /\ (forall x, val (fst s') x = val (fst s) x).
Proof.
  destruct s as [h [[hd|] k]]; intros (K & En & R); cbn [fst snd d_head d_length] in *.
  - destruct R as (R & LB). unfold Clear. rewrite bind_hget. cbn [d_head is_nil negb].
    assert (Lhd : (hd < length h)%nat) by (eapply ring_lt; eauto; now left).
    assert (L0 : fr hd = None) by (apply LB; now left).
    erewrite bind_eq; [|rewrite (bind_eq _ _ _ _ _ (st_prev_ok h _ hd _ Lhd)); apply st_next_ok; lens].
    eexists. split; [reflexivity|]. unfold rep. cbn [fst snd d_head d_length set_d_length]. split;
      [|split; [reflexivity|split; [lens|split; [intros x NE; assert (x <> hd) by congruence; now vw|intros x; now vw]]]]. split; [|split; [reflexivity|split]].
    + apply keeps_sn; auto. now apply keeps_sp.
    + unfold ring. cbn [open lst addrs map]. vw. repeat split; auto. repeat constructor; auto.
    + intros a [<-|[]]. auto.
  - subst l. eexists. split; [reflexivity|]. split; auto. split; auto. split; reflexivity.
Qed.

Lemma Front_ok fr l s : rep fr l s -> Front s = (match map snd l with [] => Panic | x :: _ => Ok x end, s).
Proof.
  destruct s as [h [[hd|] k]]; intros (K & En & R); cbn [fst snd d_head d_length] in *; subst k; unfold Front; rewrite bind_IsEmpty; cbn [d_length].
  - destruct l as [|[c v] l]; [reflexivity|]. rewrite zlen_cons0, bind_hget. cbn [d_head]. destruct R as ((O & N & Pv & ND) & _). destruct O as (Nh & Pc & Vc & O).
    rewrite (bind_eq _ _ _ _ _ (ld_next_ok h _ hd _ Nh)), (ld_value_ok h _ c _ Vc). reflexivity.
  - subst l. reflexivity.
Qed.
Lemma Back_ok fr l s : rep fr l s -> Back s = (match rev (map snd l) with [] => Panic | x :: _ => Ok x end, s).
Proof.
  destruct s as [h [[hd|] k]]; intros (K & En & R); cbn [fst snd d_head d_length] in *; subst k; unfold Back; rewrite bind_IsEmpty; cbn [d_length].
  - destruct (Proof_SList.snoc_case l) as [->|(l' & [c v] & ->)]; [reflexivity|].
    assert ((zlen (l' ++ [(c, v)]) =? 0) = false) as -> by (apply Z.eqb_neq; rewrite zlen_app; change (zlen [(c, v)]) with 1; pose proof (zlen_nonneg l'); lia).
    rewrite bind_hget. cbn [d_head]. destruct R as ((O & N & Pv & ND) & _). rewrite lst_app in Pv. cbn [lst] in Pv. apply open_app in O as [_ (_ & _ & Vc & _)].
    rewrite (bind_eq _ _ _ _ _ (ld_prev_ok h _ hd _ Pv)), (ld_value_ok h _ c _ Vc), map_app, rev_app_distr. reflexivity.
  - subst l. reflexivity.
Qed.

(** *** Loops: n is the node reached, l the cells still ahead *)
(** Standing at hdp hd l, l ahead. *)
Definition ahead h hd (n : nat) l : Prop := exists a, n = hdp hd l /\ open h a l /\ nxt h (lst a l) = Some (Some hd) /\ ~ In hd (addrs l).
Lemma ahead_nil h hd n : ahead h hd n [] -> n = hd.
Proof. intros (a & E & _). exact E. Qed.
Lemma ahead_cons h hd n c v l : ahead h hd n ((c, v) :: l) -> n = c /\ n <> hd /\ val h c = Some v /\ nxt h c = Some (Some (hdp hd l)) /\ ahead h hd (hdp hd l) l.
Proof.
  intros (a & E & (Na & Pc & Vc & O) & N & NI). cbn in E, N, NI. split; auto. split; [intros ->; apply NI; auto|]. split; auto. split.
  - now apply open_first.
  - exists c. split; auto. split; auto.
Qed.
Lemma ring_ahead h hd l : ring h hd l -> nxt h hd = Some (Some (hdp hd l)) /\ ahead h hd (hdp hd l) l.
Proof.
  intros (O & N & Pv & ND). split; [now apply open_first|]. exists hd. repeat split; auto. now inversion ND.
Qed.
Lemma peqb_refl a : peqb (Some a) (Some a) = true.
Proof. apply Nat.eqb_refl. Qed.
Lemma peqb_ne a b : a <> b -> peqb (Some a) (Some b) = false.
Proof. apply Nat.eqb_neq. Qed.

Section Loops.
Context {St : Type}.
Lemma ForEach_loop_ok (cb : St -> T -> St) h hdr hd l : d_head hdr = Some hd -> forall fuel n st, ahead h hd n l -> (length l < fuel)%nat ->
  ForEach_loop cb fuel (Some n) st (h, hdr) = (Ok (fold_left cb (map snd l) st), (h, hdr)).
Proof.
  intros Eh. induction l as [|[c v] l IH]; intros fuel n st A F; (destruct fuel as [|fuel]; [cbn in F; lia|]); cbn [ForEach_loop]; rewrite bind_hget, Eh.
  - apply ahead_nil in A. subst n. rewrite peqb_refl. reflexivity.
  - apply ahead_cons in A as (-> & NE & V & N & A). rewrite peqb_ne by auto.
    rewrite (bind_eq _ _ _ _ _ (ld_value_ok h _ c _ V)). cbn zeta. rewrite (bind_eq _ _ _ _ _ (ld_next_ok h _ c _ N)). apply IH; auto. cbn in F. lia.
Qed.
Lemma ForEachIf_loop_ok (cb : St -> T -> bool * St) h hdr hd l : d_head hdr = Some hd -> forall fuel n st, ahead h hd n l -> (length l < fuel)%nat ->
  ForEachIf_loop cb fuel (Some n) st (h, hdr) = (Ok (fold_while cb st (map snd l)), (h, hdr)).
Proof.
  intros Eh. induction l as [|[c v] l IH]; intros fuel n st A F; (destruct fuel as [|fuel]; [cbn in F; lia|]); cbn [ForEachIf_loop]; rewrite bind_hget, Eh.
  - apply ahead_nil in A. subst n. rewrite peqb_refl. reflexivity.
  - apply ahead_cons in A as (-> & NE & V & N & A). rewrite peqb_ne by auto.
    rewrite (bind_eq _ _ _ _ _ (ld_value_ok h _ c _ V)). cbn [map snd fold_while]. destruct (cb st v) as [[] st1]; cbn [negb]; [|reflexivity].
    rewrite (bind_eq _ _ _ _ _ (ld_next_ok h _ c _ N)). apply IH; auto. cbn in F. lia.
Qed.

(** Writing values of some cells only. *)
Definition same_links h h' : Prop := length h' = length h /\ (forall x, nxt h' x = nxt h x) /\ (forall x, prv h' x = prv h x).
Lemma ahead_val h h' hd n l : same_links h h' -> (forall x, In x (addrs l) -> val h' x = val h x) -> ahead h hd n l -> ahead h' hd n l.
Proof.
  intros (_ & SN & SP) SV (a & E & O & N & NI). exists a. split; auto. split; [|split; auto; now rewrite SN].
  clear - SN SP SV O. revert a O SV. induction l as [|[c v] l IH]; intros a O SV; [exact I|]. destruct O as (N & Pc & V & O). cbn.
  rewrite SN, SP, SV by (now left). repeat split; auto. apply IH; auto. intros x I. apply SV. now right.
Qed.
Lemma same_links_refl h : same_links h h.
Proof. repeat split. Qed.
Lemma same_links_sv a v h : same_links h (sv a v h).
Proof. split; [apply len_sv|]. split; intros x; [apply nxt_sv|apply prv_sv]. Qed.
Lemma same_links_trans h h1 h2 : same_links h h1 -> same_links h1 h2 -> same_links h h2.
Proof. intros (A & B & C) (D & E & F). split; [lia|]. split; intros x; [rewrite E|rewrite F]; auto. Qed.

Lemma ForEachMutable_loop_ok (cb : St -> T -> T * St) fr hdr hd l : d_head hdr = Some hd -> forall h fuel n st, ahead h hd n l -> NoDup (addrs l) -> (length l < fuel)%nat ->
  keeps fr h -> (forall a, In a (addrs l) -> fr a = None) ->
  exists h', ForEachMutable_loop cb fuel (Some n) st (h, hdr) = (Ok (snd (map_st cb st (map snd l))), (h', hdr)) /\
    keeps fr h' /\ same_links h h' /\ (forall x, ~ In x (addrs l) -> val h' x = val h x) /\
    Forall2 (fun a v => val h' a = Some v) (addrs l) (fst (map_st cb st (map snd l))).
Proof.
  intros Eh. induction l as [|[c v] l IH]; intros h fuel n st A ND F K LB; (destruct fuel as [|fuel]; [cbn in F; lia|]); cbn [ForEachMutable_loop]; rewrite bind_hget, Eh.
  - apply ahead_nil in A. subst n. rewrite peqb_refl. exists h. split; [reflexivity|]. split; auto. split; [apply same_links_refl|]. split; auto. constructor.
  - apply ahead_cons in A as (-> & NE & V & N & A). rewrite peqb_ne by auto.
    rewrite (bind_eq _ _ _ _ _ (ld_value_ok h _ c _ V)). cbn [map snd map_st]. destruct (cb st v) as [w st1].
    pose proof (val_lt _ _ _ V) as Lc. rewrite (bind_eq _ _ _ _ _ (st_value_ok h _ c _ Lc)).
    erewrite bind_eq; [|apply ld_next_ok; vw; exact N].
    cbn [addrs map fst] in ND, LB. apply NoDup_cons_iff in ND as [NI ND].
    destruct (IH (sv c w h) fuel (hdp hd l) st1) as (h' & E & K' & SL & SV & FA); auto.
    + eapply ahead_val; [apply same_links_sv| |exact A]. intros x I. rewrite val_sv by auto. rewrite eqb_ne; auto. intros ->. auto.
    + cbn in F. lia.
    + apply keeps_sv; auto. apply LB. now left.
    + intros a I. apply LB. now right.
    + exists h'. rewrite E. destruct (map_st cb st1 (map snd l)) as [ys st2]. cbn [fst snd] in *. split; auto. split; auto.
      split; [eapply same_links_trans; [apply same_links_sv|exact SL]|]. split.
      * intros x NI2. rewrite SV by (intros I; apply NI2; now right). rewrite val_sv by auto. rewrite eqb_ne; auto. intros ->. apply NI2. now left.
      * constructor; auto. rewrite SV by auto. rewrite val_sv, Nat.eqb_refl by auto. reflexivity.
Qed.
Lemma ForEachMutableIf_loop_ok (cb : St -> T -> T * bool * St) fr hdr hd l : d_head hdr = Some hd -> forall h fuel n st, ahead h hd n l -> NoDup (addrs l) -> (length l < fuel)%nat ->
  keeps fr h -> (forall a, In a (addrs l) -> fr a = None) -> Forall2 (fun a v => val h a = Some v) (addrs l) (map snd l) ->
  exists h', ForEachMutableIf_loop cb fuel (Some n) st (h, hdr) = (Ok (snd (map_while cb st (map snd l))), (h', hdr)) /\
    keeps fr h' /\ same_links h h' /\ (forall x, ~ In x (addrs l) -> val h' x = val h x) /\
    Forall2 (fun a v => val h' a = Some v) (addrs l) (fst (map_while cb st (map snd l))).
Proof.
  intros Eh. induction l as [|[c v] l IH]; intros h fuel n st A ND F K LB FV; (destruct fuel as [|fuel]; [cbn in F; lia|]); cbn [ForEachMutableIf_loop]; rewrite bind_hget, Eh.
  - apply ahead_nil in A. subst n. rewrite peqb_refl. exists h. split; [reflexivity|]. split; auto. split; [apply same_links_refl|]. split; auto.
  - apply ahead_cons in A as (-> & NE & V & N & A). rewrite peqb_ne by auto.
    rewrite (bind_eq _ _ _ _ _ (ld_value_ok h _ c _ V)). cbn [map snd map_while]. destruct (cb st v) as [[w go] st1].
    pose proof (val_lt _ _ _ V) as Lc. rewrite (bind_eq _ _ _ _ _ (st_value_ok h _ c _ Lc)).
    cbn [addrs map fst] in ND, LB. apply NoDup_cons_iff in ND as [NI ND]. cbn [addrs map fst snd] in FV. inversion FV as [|? ? ? ? _ FV']; subst.
    assert (FV1 : Forall2 (fun a v0 => val (sv c w h) a = Some v0) (addrs l) (map snd l)).
    { clear - FV' NI Lc. unfold addrs in *. induction FV'; constructor.
      - rewrite val_sv by auto. rewrite eqb_ne; auto. intros ->. apply NI. now left.
      - apply IHFV'. intros I. apply NI. now right. }
    destruct go; cbn [negb].
    + erewrite bind_eq; [|apply ld_next_ok; vw; exact N].
      destruct (IH (sv c w h) fuel (hdp hd l) st1) as (h' & E & K' & SL & SV & FA); auto.
      * eapply ahead_val; [apply same_links_sv| |exact A]. intros x I. rewrite val_sv by auto. rewrite eqb_ne; auto. intros ->. auto.
      * cbn in F. lia.
      * apply keeps_sv; auto. apply LB. now left.
      * intros a I. apply LB. now right.
      * exists h'. rewrite E. destruct (map_while cb st1 (map snd l)) as [ys st2]. cbn [fst snd] in *. split; auto. split; auto.
        split; [eapply same_links_trans; [apply same_links_sv|exact SL]|]. split.
        -- intros x NI2. rewrite SV by (intros I; apply NI2; now right). rewrite val_sv by auto. rewrite eqb_ne; auto. intros ->. apply NI2. now left.
        -- constructor; auto. rewrite SV by auto. rewrite val_sv, Nat.eqb_refl by auto. reflexivity.
    + exists (sv c w h). cbn [fst snd]. split; [reflexivity|]. split; [apply keeps_sv; auto; apply LB; now left|]. split; [apply same_links_sv|]. split.
      * intros x NI2. rewrite val_sv by auto. rewrite eqb_ne; auto. intros ->. apply NI2. now left.
      * constructor; auto. rewrite val_sv, Nat.eqb_refl by auto. reflexivity.
Qed.
End Loops.

(** The ring with other values in the same cells. *)
Lemma open_set h h' l : forall a vs, same_links h h' -> open h a l -> Forall2 (fun a v => val h' a = Some v) (addrs l) vs -> open h' a (combine (addrs l) vs) /\ lst a (combine (addrs l) vs) = lst a l.
Proof.
  induction l as [|[c v] l IH]; intros a vs SL O FA; [cbn; auto|]. destruct O as (N & Pc & V & O). cbn [addrs map fst] in FA. inversion FA as [|? w ? ys Hw FA']; subst.
  pose proof SL as (_ & SN & SP). cbn [addrs map fst combine open lst]. rewrite SN, SP. destruct (IH c ys SL O FA') as [IH1 IH2]. repeat split; auto.
Qed.
Lemma combine_addrs l vs : length vs = length l -> addrs (combine (addrs l) vs) = addrs l /\ map snd (combine (addrs l) vs) = vs.
Proof.
  revert vs. induction l as [|[c v] l IH]; intros [|w vs] E; try discriminate; [auto|]. cbn [addrs map fst combine snd]. destruct (IH vs) as [I1 I2]; [cbn in E; lia|].
  unfold addrs in I1, I2 |- *. split; [now rewrite I1|now rewrite I2].
Qed.
Lemma Forall2_len {A B} (R : A -> B -> Prop) xs ys : Forall2 R xs ys -> length ys = length xs.
Proof. induction 1; cbn; auto. Qed.
Lemma rep_set fr h hdr hd l h' vs : rep fr l (h, hdr) -> d_head hdr = Some hd -> keeps fr h' -> same_links h h' ->
  Forall2 (fun a v => val h' a = Some v) (addrs l) vs -> rep fr (combine (addrs l) vs) (h', hdr).
Proof.
  intros (K & En & R) Eh K' SL FA. unfold rep. cbn [fst snd] in *. rewrite Eh in *. destruct R as ((O & N & Pv & ND) & LB).
  assert (EL : length vs = length l) by (pose proof (Forall2_len _ _ _ FA) as E; unfold addrs in E; rewrite map_length in E; auto).
  destruct (combine_addrs l vs EL) as [EA EV]. destruct (open_set h h' l hd vs SL O FA) as [O' L']. pose proof SL as (_ & SN & SP).
  split; auto. split.
  - rewrite En. unfold zlen. rewrite combine_length. unfold addrs. rewrite map_length. lia.
  - unfold ring. rewrite EA, L', SN, SP. auto.
Qed.

Lemma open_vals h l : forall a, open h a l -> Forall2 (fun a v => val h a = Some v) (addrs l) (map snd l).
Proof. induction l as [|[c v] l IH]; intros a O; [constructor|]. destruct O as (N & Pc & V & O). constructor; eauto. Qed.

Lemma ForEach_ok {St} (cb : St -> T -> St) fr l s st : rep fr l s -> ForEach cb st s = (Ok (fold_left cb (map snd l) st), s).
Proof.
  destruct s as [h [[hd|] k]]; intros (K & En & R); cbn [fst snd d_head d_length] in *; subst k; unfold ForEach; rewrite bind_IsEmpty; cbn [d_length].
  - destruct l as [|c l]; [reflexivity|]. rewrite zlen_cons0, bind_fuel, bind_hget. cbn [d_head]. destruct R as (R & _). destruct (ring_ahead _ _ _ R) as [N A].
    rewrite (bind_eq _ _ _ _ _ (ld_next_ok h _ hd _ N)). eapply ForEach_loop_ok; eauto; [reflexivity|]. eapply ring_fuel; eauto.
  - subst l. reflexivity.
Qed.
Lemma ForEachIf_ok {St} (cb : St -> T -> bool * St) fr l s st : rep fr l s -> ForEachIf cb st s = (Ok (fold_while cb st (map snd l)), s).
Proof.
  destruct s as [h [[hd|] k]]; intros (K & En & R); cbn [fst snd d_head d_length] in *; subst k; unfold ForEachIf; rewrite bind_IsEmpty; cbn [d_length].
  - destruct l as [|c l]; [reflexivity|]. rewrite zlen_cons0, bind_fuel, bind_hget. cbn [d_head]. destruct R as (R & _). destruct (ring_ahead _ _ _ R) as [N A].
    rewrite (bind_eq _ _ _ _ _ (ld_next_ok h _ hd _ N)). eapply ForEachIf_loop_ok; eauto; [reflexivity|]. eapply ring_fuel; eauto.
  - subst l. reflexivity.
Qed.
Lemma ForEachMutable_ok {St} (cb : St -> T -> T * St) fr l s st : rep fr l s -> exists s',
  ForEachMutable cb st s = (Ok (snd (map_st cb st (map snd l))), s') /\ rep fr (combine (addrs l) (fst (map_st cb st (map snd l)))) s' /\ d_head (snd s') = d_head (snd s) /\
  (forall x, ~ In x (addrs l) -> val (fst s') x = val (fst s) x).
Proof.
  destruct s as [h [[hd|] k]]; intros R0; pose proof R0 as (K & En & R); cbn [fst snd d_head d_length] in *; subst k; unfold ForEachMutable; rewrite bind_IsEmpty; cbn [d_length].
  - destruct l as [|c l]; [exists (h, mkDList (Some hd) (zlen (@nil (nat * T)))); split; [reflexivity|]; auto|]. rewrite zlen_cons0, bind_fuel, bind_hget. cbn [d_head]. destruct R as (R & LB). destruct (ring_ahead _ _ _ R) as [N A].
    rewrite (bind_eq _ _ _ _ _ (ld_next_ok h _ hd _ N)).
    destruct (ForEachMutable_loop_ok cb fr (mkDList (Some hd) (zlen (c :: l))) hd (c :: l) eq_refl h (S (length h)) (hdp hd (c :: l)) st A) as (h' & E & K' & SL & SV & FA); auto.
    + destruct R as (_ & _ & _ & ND). now inversion ND.
    + eapply ring_fuel; eauto.
    + intros a I. apply LB. now right.
    + exists (h', mkDList (Some hd) (zlen (c :: l))). split; [exact E|]. split; [|split; [reflexivity|exact SV]]. eapply rep_set; eauto. reflexivity.
  - subst l. eexists. split; [reflexivity|]. auto.
Qed.
Lemma ForEachMutableIf_ok {St} (cb : St -> T -> T * bool * St) fr l s st : rep fr l s -> exists s',
  ForEachMutableIf cb st s = (Ok (snd (map_while cb st (map snd l))), s') /\ rep fr (combine (addrs l) (fst (map_while cb st (map snd l)))) s' /\ d_head (snd s') = d_head (snd s) /\
  (forall x, ~ In x (addrs l) -> val (fst s') x = val (fst s) x).
Proof.
  destruct s as [h [[hd|] k]]; intros R0; pose proof R0 as (K & En & R); cbn [fst snd d_head d_length] in *; subst k; unfold ForEachMutableIf; rewrite bind_IsEmpty; cbn [d_length].
  - destruct l as [|c l]; [exists (h, mkDList (Some hd) (zlen (@nil (nat * T)))); split; [reflexivity|]; auto|]. rewrite zlen_cons0, bind_fuel, bind_hget. cbn [d_head]. destruct R as (R & LB). destruct (ring_ahead _ _ _ R) as [N A].
    rewrite (bind_eq _ _ _ _ _ (ld_next_ok h _ hd _ N)).
    destruct (ForEachMutableIf_loop_ok cb fr (mkDList (Some hd) (zlen (c :: l))) hd (c :: l) eq_refl h (S (length h)) (hdp hd (c :: l)) st A) as (h' & E & K' & SL & SV & FA); auto.
    + destruct R as (_ & _ & _ & ND). now inversion ND.
    + eapply ring_fuel; eauto.
    + intros a I. apply LB. now right.
    + destruct R as (O & _). eapply open_vals; eauto.
    + exists (h', mkDList (Some hd) (zlen (c :: l))). split; [exact E|]. split; [|split; [reflexivity|exact SV]]. eapply rep_set; eauto. reflexivity.
  - subst l. eexists. split; [reflexivity|]. auto.
Qed.

(** *** Iterators *)
Lemma bind_IsNotEnd {B} it (k : bool -> P (dnode T) dlist B) h hdr : (x <- IsNotEnd it ;; k x) (h, hdr) = k (negb (peqb it (d_head hdr))) (h, hdr).
Proof. reflexivity. Qed.
Lemma Iterate_ok fr l h hd k : rep fr l (h, mkDList (Some hd) k) -> Iterate (h, mkDList (Some hd) k) = (Ok (Some (hdp hd l)), (h, mkDList (Some hd) k)) /\ ahead h hd (hdp hd l) l.
Proof.
  intros (_ & _ & R). cbn [fst snd d_head] in R. destruct R as (R & _). destruct (ring_ahead _ _ _ R) as [N A]. split; auto.
  unfold Iterate. rewrite bind_hget. cbn [d_head is_nil negb]. now apply ld_next_ok.
Qed.
(** Forward links only. *)
Fixpoint fwd h hd (n : nat) l : Prop :=
  match l with
  | [] => n = hd
  | (c, v) :: r => n = c /\ c <> hd /\ val h c = Some v /\ exists m, nxt h c = Some (Some m) /\ fwd h hd m r
  end.
Lemma ahead_fwd h hd l : forall n, ahead h hd n l -> fwd h hd n l.
Proof.
  induction l as [|[c v] l IH]; intros n A; [now apply ahead_nil in A|]. apply ahead_cons in A as (-> & NE & V & N & A). cbn. repeat split; auto. eauto.
Qed.
Lemma fwd_frame h h' hd l : (forall x, x <> hd -> nxt h' x = nxt h x) -> (forall x, val h' x = val h x) -> forall n, fwd h hd n l -> fwd h' hd n l.
Proof.
  intros N V. induction l as [|[c v] l IH]; intros n A; [exact A|]. destruct A as (-> & NE & Vc & m & Nc & A). cbn. rewrite V, N by auto. repeat split; auto. eauto.
Qed.
Lemma iter_loop_fwd h hdr hd l : d_head hdr = Some hd -> forall fuel n seen, fwd h hd n l -> (length l < fuel)%nat ->
  iter_loop fuel (Some n) seen (h, hdr) = (Ok (seen ++ map snd l), (h, hdr)).
Proof.
  intros Eh. induction l as [|[c v] l IH]; intros fuel n seen A F; (destruct fuel as [|fuel]; [cbn in F; lia|]); cbn [iter_loop]; rewrite bind_IsNotEnd, Eh.
  - cbn in A. subst n. rewrite peqb_refl. cbn. now rewrite app_nil_r.
  - destruct A as (-> & NE & V & m & N & A). rewrite peqb_ne by auto. cbn [negb]. unfold Value, MoveToNext.
    rewrite (bind_eq _ _ _ _ _ (ld_value_ok h _ c _ V)), (bind_eq _ _ _ _ _ (ld_next_ok h _ c _ N)). rewrite IH; auto; [|cbn in F; lia].
    cbn. now rewrite <- app_assoc.
Qed.
Lemma iter_loop_ok h hdr hd l : d_head hdr = Some hd -> forall fuel n seen, ahead h hd n l -> (length l < fuel)%nat ->
  iter_loop fuel (Some n) seen (h, hdr) = (Ok (seen ++ map snd l), (h, hdr)).
Proof. intros Eh fuel n seen A F. eapply iter_loop_fwd; eauto. now apply ahead_fwd. Qed.
Lemma advance_ok h hdr hd l : d_head hdr = Some hd -> forall i n, ahead h hd n l ->
  exists n', advance i (Some n) (h, hdr) = (Ok (Some n'), (h, hdr)) /\ ahead h hd n' (skipn i l).
Proof.
  intros Eh. induction l as [|[c v] l IH]; intros i n A.
  - exists n. rewrite skipn_nil. split; auto. apply ahead_nil in A. subst n. destruct i as [|i]; [reflexivity|]. cbn [advance]. rewrite bind_IsNotEnd, Eh, peqb_refl. reflexivity.
  - destruct i as [|i]; [exists n; auto|]. apply ahead_cons in A as (-> & NE & V & N & A). cbn [advance]. rewrite bind_IsNotEnd, Eh, peqb_ne by auto. cbn [negb].
    unfold MoveToNext. rewrite (bind_eq _ _ _ _ _ (ld_next_ok h _ c _ N)). cbn [skipn]. now apply IH.
Qed.
Lemma iter_all_ok fr l s : rep fr l s -> iter_all s = (Ok (map snd l), s).
Proof.
  destruct s as [h [[hd|] k]]; intros R.
  - destruct (Iterate_ok _ _ _ _ _ R) as [E A]. unfold iter_all. rewrite bind_fuel, (bind_eq _ _ _ _ _ E). apply (iter_loop_ok h (mkDList (Some hd) k) hd l eq_refl _ _ [] A).
    destruct R as (_ & _ & R). cbn in R. eapply ring_fuel; eapply R.
  - destruct R as (_ & _ & ->). reflexivity.
Qed.
Lemma skipn_nth {A} (l : list A) i : skipn i l = match nth_error l i with Some x => x :: skipn (S i) l | None => [] end.
Proof. revert i. induction l as [|x l IH]; intros [|i]; cbn; auto. apply IH. Qed.
Lemma iter_get_ok fr l s i : rep fr l s -> iter_get zero i s = (Ok (match nth_error (map snd l) i with Some v => (v, true) | None => (zero, false) end), s).
Proof.
  destruct s as [h [[hd|] k]]; intros R.
  - destruct (Iterate_ok _ _ _ _ _ R) as [E A]. unfold iter_get. rewrite (bind_eq _ _ _ _ _ E).
    destruct (advance_ok h (mkDList (Some hd) k) hd l eq_refl i _ A) as (n & E2 & A2). rewrite (bind_eq _ _ _ _ _ E2), bind_IsNotEnd. cbn [d_head].
    rewrite nth_error_map. rewrite skipn_nth in A2. destruct (nth_error l i) as [[c v]|]; cbn [option_map snd].
    + apply ahead_cons in A2 as (-> & NE & V & _ & _). rewrite peqb_ne by auto. cbn [negb]. unfold Value. rewrite (bind_eq _ _ _ _ _ (ld_value_ok h _ c _ V)). reflexivity.
    + apply ahead_nil in A2. subst n. rewrite peqb_refl. reflexivity.
  - destruct R as (_ & _ & ->). destruct i; reflexivity.
Qed.
Lemma vals_upd h l i v c w : Forall2 (fun a v => val h a = Some v) (addrs l) (map snd l) -> NoDup (addrs l) -> nth_error l i = Some (c, w) ->
  Forall2 (fun a x => val (sv c v h) a = Some x) (addrs l) (upd i v (map snd l)).
Proof.
  revert i. induction l as [|[d x] l IH]; intros i FA ND E; [destruct i; discriminate|]. cbn [addrs map fst snd] in *. inversion FA as [|? ? ? ? V FA']; subst.
  apply NoDup_cons_iff in ND as [NI ND]. destruct i as [|i]; cbn [upd nth_error] in *.
  - injection E as -> ->. constructor; [rewrite val_sv, Nat.eqb_refl; auto; now apply val_lt in V|].
    apply val_lt in V. clear - FA' NI V. unfold addrs in *. induction FA'; constructor.
    + rewrite val_sv by auto. rewrite eqb_ne; auto. intros ->. apply NI. now left.
    + apply IHFA'. intros I. apply NI. now right.
  - assert (Ic : In c (addrs l)) by (apply nth_error_In in E; apply (in_map fst) in E; exact E).
    constructor; [|apply IH; auto]. rewrite val_sv.
    + rewrite eqb_ne; auto. intros ->. auto.
    + clear - FA' Ic. unfold addrs in *. induction FA' as [|a y la lv V FA IH]; [destruct Ic|]. destruct Ic as [<-|Ic]; [now apply val_lt in V|auto].
Qed.
Lemma iter_set_ok fr l s i v : rep fr l s -> exists s' l', iter_set i v s = (Ok (match nth_error (map snd l) i with Some _ => true | None => false end), s') /\
  rep fr l' s' /\ map snd l' = upd i v (map snd l) /\ addrs l' = addrs l /\ d_head (snd s') = d_head (snd s) /\
  (forall x, ~ In x (addrs l) -> val (fst s') x = val (fst s) x).
Proof.
  destruct s as [h [[hd|] k]]; intros R.
  - destruct (Iterate_ok _ _ _ _ _ R) as [E A]. unfold iter_set. rewrite (bind_eq _ _ _ _ _ E).
    destruct (advance_ok h (mkDList (Some hd) k) hd l eq_refl i _ A) as (n & E2 & A2). rewrite (bind_eq _ _ _ _ _ E2), bind_IsNotEnd. cbn [d_head].
    rewrite nth_error_map. rewrite skipn_nth in A2. destruct (nth_error l i) as [[c w]|] eqn:En; cbn [option_map snd].
    + apply ahead_cons in A2 as (-> & NE & V & _ & _). rewrite peqb_ne by auto. cbn [negb]. unfold Pointer_store.
      rewrite (bind_eq _ _ _ _ _ (st_value_ok h _ c v (val_lt _ _ _ V))). eexists _, (combine (addrs l) (upd i v (map snd l))). split; [reflexivity|].
      assert (EL : length (upd i v (map snd l)) = length l) by (now rewrite upd_length, map_length).
      destruct (combine_addrs l _ EL) as [EA EV]. pose proof R as (K & _ & (O & _ & _ & ND) & LB). cbn [fst] in *.
      split; [|split; [auto|split; [auto|split; [reflexivity|]]]]; [eapply rep_set; [exact R|reflexivity| |apply same_links_sv|]|].
      * apply keeps_sv; auto. apply LB. right. apply nth_error_In in En. apply (in_map fst) in En. exact En.
      * eapply vals_upd; eauto; [eapply open_vals; eauto|now inversion ND].
      * intros x NI. rewrite val_sv by (now apply val_lt in V). rewrite eqb_ne; auto. intros ->. apply NI. apply nth_error_In in En. apply (in_map fst) in En. exact En.
    + apply ahead_nil in A2. subst n. rewrite peqb_refl. eexists _, l. split; [reflexivity|]. split; auto. split; [|auto].
      rewrite upd_ge; auto. rewrite map_length. now apply nth_error_None.
  - pose proof R as (_ & _ & ->). eexists _, []. split; [destruct i; reflexivity|]. split; auto. destruct i; auto.
Qed.

(** *** Backward links *)
Lemma back_loop_ok h hdr hd : d_head hdr = Some hd -> forall l fuel seen, open h hd l -> NoDup (hd :: addrs l) -> (length l < fuel)%nat ->
  back_loop fuel (Some (lst hd l)) seen (h, hdr) = (Ok (seen ++ rev (map snd l)), (h, hdr)).
Proof.
  intros Eh l. induction l as [|[c v] l IH] using rev_ind; intros fuel seen O ND F; (destruct fuel as [|fuel]; [rewrite ?app_length in F; cbn in F; lia|]); cbn [back_loop]; rewrite bind_hget, Eh.
  - cbn [lst]. rewrite peqb_refl. cbn. now rewrite app_nil_r.
  - rewrite lst_app. cbn [lst]. apply nodup_snoc in ND as [ND NI]. rewrite peqb_ne by (intros ->; apply NI; now left).
    apply open_app in O as [O (_ & Pc & V & _)].
    rewrite (bind_eq _ _ _ _ _ (ld_value_ok h _ c _ V)), (bind_eq _ _ _ _ _ (ld_prev_ok h _ c _ Pc)). rewrite IH; auto.
    + rewrite map_app, rev_app_distr. cbn. now rewrite <- app_assoc.
    + rewrite app_length in F. cbn in F. lia.
Qed.
Lemma back_all_ok fr l s : rep fr l s -> back_all s = (Ok (rev (map snd l)), s).
Proof.
  destruct s as [h [[hd|] k]]; intros (K & En & R); cbn [fst snd d_head d_length] in *; unfold back_all; rewrite bind_hget; cbn [d_head is_nil].
  - destruct R as (R & _). pose proof (ring_fuel _ _ _ R) as F. destruct R as (O & N & Pv & ND). rewrite bind_fuel, (bind_eq _ _ _ _ _ (ld_prev_ok h _ hd _ Pv)).
    now apply (back_loop_ok h (mkDList (Some hd) k) hd eq_refl l _ []).
  - subst l. reflexivity.
Qed.

(** *** All calls *)
Definition Rel fr (xs : list T) (s : heap * dlist) : Prop := exists l, map snd l = xs /\ rep fr l s.
Lemma removelast_snoc {A} (l : list A) x : removelast (l ++ [x]) = l.
Proof. rewrite removelast_app by discriminate. cbn. apply app_nil_r. Qed.
Lemma nth_addrs_snoc l c i a : nth_error (addrs (l ++ [c])) i = Some a -> S i <> length (l ++ [c]) -> nth_error (addrs l) i = Some a.
Proof.
  rewrite addrs_app, app_length. cbn [length]. intros E N. pose proof (nth_lt _ _ _ E) as L. rewrite app_length in L. cbn [length addrs map] in L. unfold addrs in *. rewrite map_length in L.
  rewrite nth_error_app1 in E; auto. rewrite map_length. lia.
Qed.
Definition follows {St} (o : dop T St) l l' : Prop := forall i j a, nth_error (addrs l) i = Some a -> track o (map snd l) i = Some j -> nth_error (addrs l') j = Some a.
Lemma follows_same {St} (o : dop T St) l l' : addrs l' = addrs l -> (forall i, track o (map snd l) i = Some i \/ l = []) -> follows o l l'.
Proof. intros E H i j a N Tr. rewrite E. destruct (H i) as [K| ->]; [|destruct i; discriminate]. rewrite K in Tr. now injection Tr as <-. Qed.
Lemma step_full {St} fr l s (o : dop T St) : rep fr l s -> exists l',
  fst (dlist_step zero o s) = fst (dlist_spec zero o (map snd l)) /\ map snd l' = snd (dlist_spec zero o (map snd l)) /\ rep fr l' (snd (dlist_step zero o s)) /\ follows o l l'.
Proof.
  intros R. destruct o; cbn [dlist_step dlist_spec]; unfold show.
  - destruct (PushFront_ok fr l s v R) as (s' & a & E & R'). rewrite E. cbn. exists ((a, v) :: l). repeat split; auto; try apply R'.
    intros i j b N Tr. cbn in Tr. injection Tr as <-. exact N.
  - destruct (PushBack_ok fr l s v R) as (s' & a & E & R'). rewrite E. cbn. exists (l ++ [(a, v)]). split; auto. split; [apply map_app|]. split; auto.
    intros i j b N Tr. cbn in Tr. injection Tr as <-. rewrite addrs_app. rewrite nth_error_app1; auto. now apply nth_lt in N.
  - destruct l as [|[a v] l].
    + unfold PopFront. rewrite (bind_eq _ _ _ _ _ (TryPopFront_empty _ _ R)). cbn. exists []. split; auto. split; auto. split; auto. apply follows_same; auto.
    + destruct (TryPopFront_ok fr a v l s R) as (s' & E & R' & _). unfold PopFront. rewrite (bind_eq _ _ _ _ _ E). cbn. exists l. split; auto. split; auto. split; auto.
      intros [|i] j b N Tr; cbn in Tr; [discriminate|]. injection Tr as <-. exact N.
  - destruct (Proof_SList.snoc_case l) as [->|(l' & [a v] & ->)].
    + unfold PopBack. rewrite (bind_eq _ _ _ _ _ (TryPopBack_empty _ _ R)). cbn. exists []. split; auto. split; auto. split; auto. apply follows_same; auto.
    + destruct (TryPopBack_ok fr a v l' s R) as (s' & E & R' & _). unfold PopBack. rewrite (bind_eq _ _ _ _ _ E), map_app. cbn. unfold seq_back. rewrite rev_app_distr, removelast_snoc.
      cbn. exists l'. split; auto. split; auto. split; auto.
      intros i j b N Tr. cbn [track] in Tr. rewrite map_length in Tr. destruct (Nat.eqb_spec (S i) (length (l' ++ [(a, v)]))); [discriminate|]. injection Tr as <-. eapply nth_addrs_snoc; eauto.
  - destruct l as [|[a v] l].
    + rewrite (TryPopFront_empty _ _ R). cbn. exists []. split; auto. split; auto. split; auto. apply follows_same; auto.
    + destruct (TryPopFront_ok fr a v l s R) as (s' & E & R' & _). rewrite E. cbn. exists l. split; auto. split; auto. split; auto.
      intros [|i] j b N Tr; cbn in Tr; [discriminate|]. injection Tr as <-. exact N.
  - destruct (Proof_SList.snoc_case l) as [->|(l' & [a v] & ->)].
    + rewrite (TryPopBack_empty _ _ R). cbn. exists []. split; auto. split; auto. split; auto. apply follows_same; auto.
    + destruct (TryPopBack_ok fr a v l' s R) as (s' & E & R' & _). rewrite E, map_app. cbn. rewrite rev_app_distr, removelast_snoc.
      cbn. exists l'. split; auto. split; auto. split; auto.
      intros i j b N Tr. cbn [track] in Tr. rewrite map_length in Tr. destruct (Nat.eqb_spec (S i) (length (l' ++ [(a, v)]))); [discriminate|]. injection Tr as <-. eapply nth_addrs_snoc; eauto.
  - destruct (Clear_ok fr l s R) as (s' & E & R' & _). rewrite E. cbn. exists []. split; auto. split; auto. split; auto. intros i j b N Tr. discriminate.
  - exists l. destruct s as [h hdr]. pose proof R as (_ & En & _). cbn in *. rewrite En. unfold zlen. rewrite map_length. split; auto. split; auto. split; auto. apply follows_same; auto.
  - exists l. destruct s as [h hdr]. pose proof R as (_ & En & _). cbn in *. rewrite En. split; [destruct l as [|c l]; auto|]. split; auto. split; auto. apply follows_same; auto.
  - exists l. rewrite (Front_ok fr l s R). cbn. split; [destruct (map snd l); auto|]. split; auto. split; auto. apply follows_same; auto.
  - exists l. rewrite (Back_ok fr l s R). cbn. unfold seq_back. split; [destruct (rev (map snd l)); auto|]. split; auto. split; auto. apply follows_same; auto.
  - exists l. rewrite (ForEach_ok cb fr l s st R). split; auto. split; auto. split; auto. apply follows_same; auto.
  - exists l. rewrite (ForEachIf_ok cb fr l s st R). split; auto. split; auto. split; auto. apply follows_same; auto.
  - destruct (ForEachMutable_ok cb fr l s st R) as (s' & E & R' & _). rewrite E. pose proof (Proof_SList.map_st_len cb (map snd l) st) as L. destruct (map_st cb st (map snd l)) as [ys st'].
    cbn [fst snd omap] in *. rewrite map_length in L. destruct (combine_addrs l ys L) as [EA EV]. eexists. split; [reflexivity|]. split; [|split; [exact R'|]]; auto. apply follows_same; auto.
  - destruct (ForEachMutableIf_ok cb fr l s st R) as (s' & E & R' & _). rewrite E. pose proof (Proof_SList.map_while_len cb (map snd l) st) as L. destruct (map_while cb st (map snd l)) as [ys st'].
    cbn [fst snd omap] in *. rewrite map_length in L. destruct (combine_addrs l ys L) as [EA EV]. eexists. split; [reflexivity|]. split; [|split; [exact R'|]]; auto. apply follows_same; auto.
  - exists l. rewrite (iter_all_ok fr l s R). split; auto. split; auto. split; auto. apply follows_same; auto.
  - exists l. rewrite (iter_get_ok fr l s i R). cbn. split; [destruct (nth_error (map snd l) i); auto|]. split; auto. split; auto. apply follows_same; auto.
  - destruct (iter_set_ok fr l s i v R) as (s' & l' & E & R' & V & EA & _). rewrite E. cbn. exists l'. split; [destruct (nth_error (map snd l) i); auto|]. split; auto. split; auto. apply follows_same; auto.
Qed.
Lemma step_ok {St} fr xs s (o : dop T St) : Rel fr xs s ->
  fst (dlist_step zero o s) = fst (dlist_spec zero o xs) /\ Rel fr (snd (dlist_spec zero o xs)) (snd (dlist_step zero o s)).
Proof. intros (l & <- & R). destruct (step_full fr l s o R) as (l' & E & V & R' & _). split; auto. exists l'. auto. Qed.
Lemma run_track {St} fr (ops : list (dop T St)) : forall l s i j a, rep fr l s -> nth_error (addrs l) i = Some a -> track_all zero ops (map snd l) i = Some j ->
  exists l', map snd l' = snd (run (dlist_spec zero) ops (map snd l)) /\ rep fr l' (snd (run (dlist_step zero) ops s)) /\ nth_error (addrs l') j = Some a.
Proof.
  induction ops as [|o ops IH]; intros l s i j a R N Tr; cbn [track_all run] in *.
  - injection Tr as <-. exists l. auto.
  - destruct (track o (map snd l) i) as [k|] eqn:Ek; [|discriminate]. destruct (step_full fr l s o R) as (l1 & E1 & V1 & R1 & F1).
    destruct (dlist_spec zero o (map snd l)) as [r1 xs1]. destruct (dlist_step zero o s) as [r2 s1]. cbn [fst snd] in *. subst xs1.
    destruct (IH l1 s1 k j a R1 (F1 _ _ _ N Ek) Tr) as (l2 & V2 & R2 & N2). exists l2.
    destruct (run (dlist_spec zero) ops (map snd l1)). destruct (run (dlist_step zero) ops s1). auto.
Qed.
(** What the iterator at the i-th cell can do. *)
Lemma iter_at_ok fr l s i a : rep fr l s -> nth_error (addrs l) i = Some a -> exists v,
  nth_error (map snd l) i = Some v /\ IsNotEnd (Some a) s = (Ok true, s) /\ Value (Some a) s = (Ok v, s) /\
  (it <- Iterate ;; advance i it) s = (Ok (Some a), s) /\ MoveToNext (Some a) s = (it <- Iterate ;; advance (S i) it) s /\
  (forall w, exists s' l', Pointer_store (Some a) w s = (Ok tt, s') /\ rep fr l' s' /\ map snd l' = upd i w (map snd l)).
Proof.
  destruct s as [h [[hd|] k]]; intros R N; [|destruct R as (_ & _ & ->); destruct i; discriminate].
  destruct (Iterate_ok _ _ _ _ _ R) as [E A].
  unfold addrs in N. rewrite nth_error_map in N. destruct (nth_error l i) as [[c v]|] eqn:El; [|discriminate]. cbn in N. injection N as ->.
  exists v. rewrite nth_error_map, El. split; [reflexivity|].
  destruct (advance_ok h (mkDList (Some hd) k) hd l eq_refl i _ A) as (n & E2 & A2).
  destruct (advance_ok h (mkDList (Some hd) k) hd l eq_refl (S i) _ A) as (n3 & E3 & A3).
  rewrite skipn_nth, El in A2. apply ahead_cons in A2 as (-> & NE & V & Nx & A2).
  unfold IsNotEnd. rewrite bind_hget. cbn [d_head]. rewrite peqb_ne by auto. split; [reflexivity|].
  unfold Value, MoveToNext. rewrite (ld_value_ok h _ a _ V). split; [reflexivity|].
  rewrite !(bind_eq _ _ _ _ _ E), E2, E3. split; [reflexivity|]. split.
  - rewrite (ld_next_ok h _ a _ Nx). destruct A3 as (? & -> & _). reflexivity.
  - intros w. unfold Pointer_store. rewrite (st_value_ok h _ a w (val_lt _ _ _ V)). eexists _, (combine (addrs l) (upd i w (map snd l))). split; [reflexivity|].
    assert (EL : length (upd i w (map snd l)) = length l) by (now rewrite upd_length, map_length).
    destruct (combine_addrs l _ EL) as [EA EV]. pose proof R as (K & _ & (O & _ & _ & ND) & LB). cbn [fst] in *.
    split; auto. eapply rep_set; [exact R|reflexivity| |apply same_links_sv|].
    * apply keeps_sv; auto. apply LB. right. apply nth_error_In in El. apply (in_map fst) in El. exact El.
    * eapply vals_upd; eauto; [eapply open_vals; eauto|now inversion ND].
Qed.
Lemma Rel_init h0 : Rel (nth_error h0) [] (h0, empty_dlist).
Proof. exists []. split; auto. unfold rep. cbn. repeat split; auto. apply keeps_refl. Qed.
Lemma DListOf_ok h0 vs hdr : exists s', DListOf zero vs (h0, hdr) = (Ok tt, s') /\ Rel (nth_error h0) vs s'.
Proof.
  unfold DListOf. rewrite bind_hmod.
  assert (K : forall vs xs s, Rel (nth_error h0) xs s -> exists s', DListOf_loop zero vs s = (Ok tt, s') /\ Rel (nth_error h0) (xs ++ vs) s').
  { clear. induction vs as [|v vs IH]; intros xs s R; cbn [DListOf_loop].
    - exists s. rewrite app_nil_r. auto.
    - destruct R as (l & <- & R). destruct (PushBack_ok _ l s v R) as (s1 & a & E & R1). rewrite (bind_eq _ _ _ _ _ E).
      destruct (IH (map snd l ++ [v]) s1) as (s2 & E2 & R2); [eexists; split; [|exact R1]; apply map_app|].
      exists s2. rewrite <- app_assoc in R2. auto. }
  apply (K vs [] (h0, empty_dlist)). apply Rel_init.
Qed.
Lemma run_ok {St} fr (ops : list (dop T St)) xs s : Rel fr xs s ->
  fst (run (dlist_step zero) ops s) = fst (run (dlist_spec zero) ops xs) /\ Rel fr (snd (run (dlist_spec zero) ops xs)) (snd (run (dlist_step zero) ops s)).
Proof. apply (run_sim (dlist_step zero) (dlist_spec zero) (Rel fr)). intros. now apply step_ok. Qed.
Lemma Rel_keeps fr xs s : Rel fr xs s -> keeps fr (fst s).
Proof. intros (l & _ & K & _). exact K. Qed.
End D.
