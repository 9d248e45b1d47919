(** Lemmas for C104. *)
From Verif Require Import BaseLemmas Spec Trace Spec_List Nodes Proof_Nodes Model_DList Proof_DList Proof_DListIter Spec_DListCopy Model_DListCopy.

Section DC.
Context {T St : Type}.
Variable zero : T.
Notation heap := (list (dnode T)).
Notation cells := (list (nat * T)).
Notation DP := (P (dnode T) dlist).
Implicit Types (h : heap) (l : cells) (hdr : dlist).

(** *** Programs that treat the length as a counter *)
Definition lenadd (d : Z) hdr : dlist := mkDList (d_head hdr) (d_length hdr + d).
Definition carry {A} (d : Z) (x : outcome A * (heap * dlist)) : outcome A * (heap * dlist) :=
  (fst x, (fst (snd x), lenadd d (snd (snd x)))).
Definition shifty {A} (p : DP A) : Prop := forall h hdr d, p (h, lenadd d hdr) = carry d (p (h, hdr)).

Lemma sh_ret {A} (a : A) : shifty (ret a).
Proof using Type. now intros h hdr d. Qed.
Lemma sh_panic {A} : shifty (@panic _ A).
Proof using Type. now intros h hdr d. Qed.
Lemma sh_nofuel {A} : shifty (@nofuel _ A).
Proof using Type. now intros h hdr d. Qed.
Lemma sh_bind {A B} (p : DP A) (k : A -> DP B) : shifty p -> (forall a, shifty (k a)) -> shifty (x <- p ;; k x).
Proof using Type.
  intros Hp Hk h hdr d. unfold bind. rewrite Hp. destruct (p (h, hdr)) as [[a| |] [h1 hdr1]]; cbn [carry fst snd]; try reflexivity.
  apply Hk.
Qed.
Lemma sh_head : shifty (@hget (dnode T) dlist _ d_head).
Proof using Type. now intros h hdr d. Qed.
Lemma sh_set_head p : shifty (@hmod (dnode T) dlist (set_d_head p)).
Proof using Type. now intros h hdr d. Qed.
Lemma sh_fuel : shifty (@heap_fuel (dnode T) dlist).
Proof using Type. now intros h hdr d. Qed.
Lemma sh_new n : shifty (@pnew (dnode T) dlist n).
Proof using Type. now intros h hdr d. Qed.
Lemma sh_pload p : shifty (@pload (dnode T) dlist p).
Proof using Type. intros h hdr d. destruct p as [a|]; [|reflexivity]. unfold pload. cbn [fst snd]. now destruct (nth_error h a). Qed.
Lemma sh_pmod p (f : dnode T -> dnode T) : shifty (@pmod (dnode T) dlist p f).
Proof using Type. intros h hdr d. destruct p as [a|]; [|reflexivity]. unfold pmod. cbn [fst snd]. now destruct (nth_error h a). Qed.
Lemma sh_count c : shifty (k <- hget d_length ;; hmod (set_d_length (k + c)) : DP unit).
Proof using Type. intros h hdr d. unfold bind, hget, hmod, carry, lenadd, set_d_length. cbn. do 2 f_equal. f_equal. lia. Qed.
Lemma sh_count_ret {A} c (a : A) : shifty (k <- hget d_length ;; hmod (set_d_length (k - c)) ;; ret a : DP A).
Proof using Type. intros h hdr d. unfold bind, hget, hmod, carry, lenadd, set_d_length, ret. cbn. do 2 f_equal. f_equal. lia. Qed.
Lemma sh_if {A} (b : bool) (p q : DP A) : shifty p -> shifty q -> shifty (if b then p else q).
Proof using Type. now destruct b. Qed.
End DC.

Ltac sh := repeat first
  [ apply sh_count | apply sh_count_ret | apply sh_ret | apply sh_panic | apply sh_nofuel | apply sh_head | apply sh_set_head | apply sh_fuel | apply sh_new
  | apply sh_pload | apply sh_pmod | apply sh_if
  | (apply sh_bind; [|intros ?]) ].

Section DC2.
Context {T St : Type}.
Variable zero : T.
Notation heap := (list (dnode T)).
Notation cells := (list (nat * T)).
Notation DP := (P (dnode T) dlist).
Implicit Types (h : heap) (l : cells) (hdr : dlist).

Lemma sh_PushFront v : shifty (PushFront zero v).
Proof using Type. unfold PushFront, ensureHead, ld_next, st_prev, st_next. sh. Qed.
Lemma sh_PushBack v : shifty (PushBack zero v).
Proof using Type. unfold PushBack, ensureHead, ld_prev, st_prev, st_next. sh. Qed.
Lemma sh_advance i : forall it, shifty (@advance T i it).
Proof using Type. induction i as [|i IH]; intros it; cbn [advance]; unfold IsNotEnd, MoveToNext, ld_next; sh. apply IH. Qed.
Lemma sh_iter_loop fuel : forall it seen, shifty (@iter_loop T fuel it seen).
Proof using Type. induction fuel as [|n IH]; intros it seen; cbn [iter_loop]; unfold IsNotEnd, Value, MoveToNext, ld_next, ld_value; sh. apply IH. Qed.
Lemma sh_Iterate : shifty (@Iterate T).
Proof using Type. unfold Iterate, ld_next. sh. Qed.
Lemma sh_iter_all : shifty (@iter_all T).
Proof using Type. unfold iter_all. apply sh_bind; [sh|intros f]. apply sh_bind; [apply sh_Iterate|intros it; apply sh_iter_loop]. Qed.
Lemma sh_iter_get i : shifty (iter_get zero i).
Proof using Type.
  unfold iter_get. apply sh_bind; [apply sh_Iterate|intros it]. apply sh_bind; [apply sh_advance|intros it'].
  unfold IsNotEnd, Value, ld_value. sh.
Qed.
Lemma sh_iter_set i (v : T) : shifty (iter_set i v).
Proof using Type.
  unfold iter_set. apply sh_bind; [apply sh_Iterate|intros it]. apply sh_bind; [apply sh_advance|intros it'].
  unfold IsNotEnd, Pointer_store, st_value. sh.
Qed.
Lemma sh_ForEach_loop (cb : St -> T -> St) fuel : forall n st, shifty (ForEach_loop cb fuel n st).
Proof using Type. induction fuel as [|f IH]; intros n st; cbn [ForEach_loop]; unfold ld_value, ld_next; sh. apply IH. Qed.
Lemma sh_ForEachIf_loop (cb : St -> T -> bool * St) fuel : forall n st, shifty (ForEachIf_loop cb fuel n st).
Proof using Type.
  induction fuel as [|f IH]; intros n st; cbn [ForEachIf_loop]; unfold ld_value, ld_next; sh.
  destruct (cb st _) as [go st']. sh. apply IH.
Qed.
Lemma sh_ForEachMutable_loop (cb : St -> T -> T * St) fuel : forall n st, shifty (ForEachMutable_loop cb fuel n st).
Proof using Type.
  induction fuel as [|f IH]; intros n st; cbn [ForEachMutable_loop]; unfold ld_value, ld_next, st_value; sh.
  destruct (cb st _) as [v' st']. sh. apply IH.
Qed.
Lemma sh_ForEachMutableIf_loop (cb : St -> T -> T * bool * St) fuel : forall n st, shifty (ForEachMutableIf_loop cb fuel n st).
Proof using Type.
  induction fuel as [|f IH]; intros n st; cbn [ForEachMutableIf_loop]; unfold ld_value, ld_next, st_value; sh.
  destruct (cb st _) as [[v' go] st']. sh. apply IH.
Qed.

(** A check of the length in front. *)
Lemma sh_guard {A} (p q : DP A) h hdr d : shifty p -> shifty q -> (d_length hdr =? 0) = (d_length hdr + d =? 0) ->
  (e <- IsEmpty ;; if e : bool then p else q) (h, lenadd d hdr) = carry d ((e <- IsEmpty ;; if e : bool then p else q) (h, hdr)).
Proof using Type.
  intros Hp Hq E. rewrite !bind_IsEmpty. cbn [lenadd d_length]. rewrite <- E. destruct (d_length hdr =? 0); [apply Hp|apply Hq].
Qed.
Lemma carry_show {A R} (f : A -> R) (p : DP A) h hdr d :
  p (h, lenadd d hdr) = carry d (p (h, hdr)) -> show f p (h, lenadd d hdr) = carry d (show f p (h, hdr)).
Proof using Type. intros E. unfold show. rewrite E. now destruct (p (h, hdr)) as [o [h1 hdr1]]. Qed.

Definition asks_length (o : dop T St) : bool := match o with DLen | DIsEmpty | DClear => true | _ => false end.
Lemma try_guard {A B} (p : DP A) (k : A -> DP B) h hdr d : p (h, lenadd d hdr) = carry d (p (h, hdr)) -> (forall a, shifty (k a)) ->
  (x <- p ;; k x) (h, lenadd d hdr) = carry d ((x <- p ;; k x) (h, hdr)).
Proof using Type.
  intros E Hk. unfold bind. rewrite E. destruct (p (h, hdr)) as [[a| |] [h1 hdr1]]; cbn [carry fst snd]; try reflexivity. apply Hk.
Qed.
Lemma step_shift (o : dop T St) h hdr d : asks_length o = false ->
  (guarded o = true -> (d_length hdr =? 0) = (d_length hdr + d =? 0)) ->
  dlist_step zero o (h, lenadd d hdr) = carry d (dlist_step zero o (h, hdr)).
Proof using Type.
  intros Na G. destruct o; try discriminate; cbn [dlist_step guarded] in *; apply carry_show.
  - apply sh_PushFront.
  - apply sh_PushBack.
  - unfold PopFront. apply try_guard; [|intros []; cbn; sh]. unfold TryPopFront. apply sh_guard; auto; [sh|]. unfold ld_next, ld_value, st_next, st_prev. sh.
  - unfold PopBack. apply try_guard; [|intros []; cbn; sh]. unfold TryPopBack. apply sh_guard; auto; [sh|]. unfold ld_prev, ld_value, st_next, st_prev. sh.
  - unfold TryPopFront. apply sh_guard; auto; [sh|]. unfold ld_next, ld_value, st_next, st_prev. sh.
  - unfold TryPopBack. apply sh_guard; auto; [sh|]. unfold ld_prev, ld_value, st_next, st_prev. sh.
  - unfold Front. apply sh_guard; auto; [sh|]. unfold ld_next, ld_value. sh.
  - unfold Back. apply sh_guard; auto; [sh|]. unfold ld_prev, ld_value. sh.
  - unfold ForEach. apply sh_guard; auto; [sh|]. unfold ld_next. sh. apply sh_ForEach_loop.
  - unfold ForEachIf. apply sh_guard; auto; [sh|]. unfold ld_next. sh. apply sh_ForEachIf_loop.
  - unfold ForEachMutable. apply sh_guard; auto; [sh|]. unfold ld_next. sh. apply sh_ForEachMutable_loop.
  - unfold ForEachMutableIf. apply sh_guard; auto; [sh|]. unfold ld_next. sh. apply sh_ForEachMutableIf_loop.
  - apply sh_iter_all.
  - apply sh_iter_get.
  - apply sh_iter_set.
Qed.

(** With length 0 a guarded call does nothing. *)
Lemma step_none (o : dop T St) h p : guarded o = true -> dlist_step zero o (h, mkDList p 0) = (fst (dlist_spec zero o []), (h, mkDList p 0)).
Proof using Type.
  intros G. destruct o; try discriminate; try reflexivity.
Qed.
End DC2.

Section DC3.
Context {T St : Type}.
Variable zero : T.
Notation heap := (list (dnode T)).
Notation cells := (list (nat * T)).
Notation DP := (P (dnode T) dlist).
Notation rg := (nat * option cells)%type.
Implicit Types (h : heap) (l : cells) (hdr : dlist).

(** *** Rings in the heap *)
Definition own (r : rg) : list nat := fst r :: match snd r with Some l => addrs l | None => [] end.
Definition ring_rep h (r : rg) (c : option (list T)) : Prop :=
  val h (fst r) = Some zero /\
  match snd r, c with
  | Some l, Some xs => ring h (fst r) l /\ map snd l = xs
  | None, None => nxt h (fst r) = Some None /\ prv h (fst r) = Some None
  | _, _ => False
  end.
Lemma ring_rep_lt h r c a : ring_rep h r c -> In a (own r) -> (a < length h)%nat.
Proof using Type.
  destruct r as [hd [l|]], c as [xs|]; intros (V & R); cbn [own fst snd] in *; try contradiction.
  - intros I. eapply ring_lt; [exact (proj1 R)|exact I].
  - intros [<-|[]]. now apply val_lt in V.
Qed.
Lemma ring_same h h' hd l : (forall a, In a (hd :: addrs l) -> nth_error h' a = nth_error h a) -> ring h hd l -> ring h' hd l.
Proof using Type.
  intros E (O & N & Pv & ND). unfold ring. split; [|split; [|split; [|exact ND]]].
  - apply (open_frame h h' l hd O ND); intros x I; [intros _| |]; unfold nxt, prv, val; now rewrite E by (auto; now right).
  - unfold nxt. rewrite E by apply lst_in. exact N.
  - unfold prv. rewrite E by now left. exact Pv.
Qed.
Lemma ring_rep_same h h' r c : (forall a, In a (own r) -> nth_error h' a = nth_error h a) -> ring_rep h r c -> ring_rep h' r c.
Proof using Type.
  destruct r as [hd [l|]], c as [xs|]; intros E (V & R); cbn [own fst snd] in *; try contradiction; (split; [unfold val; cbn [fst]; rewrite E by (now left); exact V|]); cbn [fst snd].
  - split; [|apply R]. eapply ring_same; [|exact (proj1 R)]. exact E.
  - unfold nxt, prv. rewrite E by now left. exact R.
Qed.

(** *** One call on a ring *)
Definition gone (hd : nat) (fr : nat -> option (dnode T)) (n : Z) (c : option (list T)) (x : outcome (res T St) * (heap * dlist)) (y : outcome (res T St) * (option (list T) * Z)) : Prop :=
  exists cs', fst x = fst y /\ snd (snd x) = mkDList (Some hd) (snd (snd y)) /\ ring_rep (fst (snd x)) (hd, cs') (fst (snd y)) /\
  keeps fr (fst (snd x)) /\ (forall a, In a (own (hd, cs')) -> fr a = None).

Lemma dmoved_end (o : dop T St) l l' s s' hd : dmoved zero o l l' s s' -> d_head (snd s) = Some hd -> d_head (snd s') = Some hd /\ val (fst s') hd = val (fst s) hd.
Proof using Type.
  intros D E.
  assert (A : end_after zero s s' -> d_head (snd s') = Some hd /\ val (fst s') hd = val (fst s) hd).
  { intros (hd' & E' & [[E2 V]|[E2 _]]); rewrite E in E2; [|discriminate]. injection E2 as ->. auto. }
  assert (B : end_same s s' -> d_head (snd s') = Some hd /\ val (fst s') hd = val (fst s) hd).
  { intros (E' & V). rewrite E'. auto. }
  destruct o; cbn [dmoved] in D; first [apply A; apply D | apply B; apply D].
Qed.
Lemma gone_shift (o : dop T St) h hd fr l n : asks_length o = false -> (guarded o = true -> n <> 0 /\ l <> []) ->
  ring h hd l -> val h hd = Some zero -> keeps fr h -> (forall a, In a (hd :: addrs l) -> fr a = None) ->
  gone hd fr n (Some (map snd l)) (dlist_step zero o (h, mkDList (Some hd) n))
    (let '(r, ys) := dlist_spec zero o (map snd l) in (r, (Some ys, n + (zlen ys - zlen (map snd l))))).
Proof using Type.
  intros Na G Rg V K F.
  assert (R : rep fr l (h, mkDList (Some hd) (zlen l))) by (split; [exact K|split; [reflexivity|cbn; auto]]).
  destruct (step_moved zero fr l _ o R) as (l' & V' & R' & D).
  destruct (step_ok zero fr (map snd l) _ o (ex_intro _ l (conj eq_refl R))) as [Er _].
  destruct (dmoved_end o l l' _ _ hd D eq_refl) as [Eh Ev].
  assert (Hs : mkDList (Some hd) n = lenadd (n - zlen l) (mkDList (Some hd) (zlen l))) by (unfold lenadd; cbn; f_equal; lia).
  assert (Gs : guarded o = true -> (d_length (mkDList (Some hd) (zlen l)) =? 0) = (d_length (mkDList (Some hd) (zlen l)) + (n - zlen l) =? 0)).
  { cbn [d_length]. intros Gd. destruct (G Gd) as [Hn Hl]. transitivity false; [destruct l; [congruence|apply zlen_cons0]|]. symmetry. apply Z.eqb_neq. lia. }
  rewrite Hs, (step_shift zero o _ _ _ Na Gs).
  destruct (dlist_step zero o (h, mkDList (Some hd) (zlen l))) as [r [h1 hdr1]]. destruct (dlist_spec zero o (map snd l)) as [r' ys]. cbn [fst snd] in *.
  destruct R' as (K' & L' & R'). cbn [fst snd] in *. rewrite Eh in R'. destruct R' as [Rg' F'].
  exists (Some l'). unfold carry. cbn [fst snd]. split; [exact Er|]. split; [|split; [|split]]; auto.
  - unfold lenadd. f_equal; auto. rewrite L', <- V'. unfold zlen. rewrite !map_length. lia.
  - split; [cbn [fst]; rewrite Ev; exact V|]. cbn [fst snd]. auto.
Qed.

(** A ring without elements, and a broken one. *)
Lemma empty_ring h hd : ring h hd [] -> nxt h hd = Some (Some hd) /\ prv h hd = Some (Some hd).
Proof using Type. intros (_ & N & Pv & _). auto. Qed.
Definition cut h hd : heap := sn hd None (sp hd None (sp hd (Some hd) (sn hd (Some hd) h))).
Definition cut_b h hd : heap := sn hd None (sp hd None (sn hd (Some hd) (sp hd (Some hd) h))).
Lemma eqb_same a : Nat.eqb a a = true.
Proof using Type. apply Nat.eqb_refl. Qed.
Lemma pop_front_none h hd n : ring h hd [] -> val h hd = Some zero -> n <> 0 ->
  TryPopFront zero (h, mkDList (Some hd) n) = (Ok (zero, true), (cut h hd, mkDList (Some hd) (n - 1))).
Proof using Type.
  intros R V Hn. destruct (empty_ring _ _ R) as [N Pv]. pose proof (val_lt _ _ _ V) as L.
  unfold TryPopFront. rewrite bind_IsEmpty. cbn [d_length]. rewrite (proj2 (Z.eqb_neq n 0) Hn). rewrite bind_hget. cbn [d_head].
  rewrite (bind_eq _ _ _ _ _ (ld_next_ok h _ hd _ N)). rewrite (bind_eq _ _ _ _ _ (ld_value_ok h _ hd _ V)). rewrite (bind_eq _ _ _ _ _ (ld_next_ok h _ hd _ N)).
  rewrite (bind_eq _ _ _ _ _ (st_next_ok h _ hd _ L)).
  rewrite (bind_eq _ _ _ _ _ (ld_next_ok (sn hd (Some hd) h) _ hd (Some hd) ltac:(rewrite nxt_sn by auto; now rewrite eqb_same))).
  erewrite bind_eq; [|apply st_prev_ok; rewrite ?len_sn, ?len_sp, ?len_sn, ?len_sp; exact L].
  erewrite bind_eq; [|apply st_prev_ok; rewrite ?len_sn, ?len_sp, ?len_sn, ?len_sp; exact L].
  erewrite bind_eq; [|apply st_next_ok; rewrite ?len_sn, ?len_sp, ?len_sn, ?len_sp; exact L].
  reflexivity.
Qed.
Lemma pop_back_none h hd n : ring h hd [] -> val h hd = Some zero -> n <> 0 ->
  TryPopBack zero (h, mkDList (Some hd) n) = (Ok (zero, true), (cut_b h hd, mkDList (Some hd) (n - 1))).
Proof using Type.
  intros R V Hn. destruct (empty_ring _ _ R) as [N Pv]. pose proof (val_lt _ _ _ V) as L.
  unfold TryPopBack. rewrite bind_IsEmpty. cbn [d_length]. rewrite (proj2 (Z.eqb_neq n 0) Hn). rewrite bind_hget. cbn [d_head].
  rewrite (bind_eq _ _ _ _ _ (ld_prev_ok h _ hd _ Pv)). rewrite (bind_eq _ _ _ _ _ (ld_value_ok h _ hd _ V)).
  rewrite (bind_eq _ _ _ _ _ (ld_prev_ok h _ hd _ Pv)). rewrite (bind_eq _ _ _ _ _ (ld_prev_ok h _ hd _ Pv)).
  rewrite (bind_eq _ _ _ _ _ (st_prev_ok h _ hd _ L)).
  rewrite (bind_eq _ _ _ _ _ (ld_prev_ok (sp hd (Some hd) h) _ hd (Some hd) ltac:(rewrite prv_sp by auto; now rewrite eqb_same))).
  erewrite bind_eq; [|apply st_next_ok; rewrite ?len_sn, ?len_sp, ?len_sn, ?len_sp; exact L].
  erewrite bind_eq; [|apply st_prev_ok; rewrite ?len_sn, ?len_sp, ?len_sn, ?len_sp; exact L].
  erewrite bind_eq; [|apply st_next_ok; rewrite ?len_sn, ?len_sp, ?len_sn, ?len_sp; exact L].
  reflexivity.
Qed.
Lemma cut_rep h hd fr : val h hd = Some zero -> keeps fr h -> fr hd = None ->
  (ring_rep (cut h hd) (hd, None) None /\ keeps fr (cut h hd)) /\ (ring_rep (cut_b h hd) (hd, None) None /\ keeps fr (cut_b h hd)).
Proof using Type.
  intros V K F. pose proof (val_lt _ _ _ V) as L. unfold cut, cut_b, ring_rep. cbn [fst snd].
  repeat first [rewrite val_sn | rewrite val_sp | rewrite nxt_sp | rewrite prv_sn
    | rewrite nxt_sn by (rewrite ?len_sp, ?len_sn, ?len_sp, ?len_sn; exact L) | rewrite prv_sp by (rewrite ?len_sn, ?len_sp, ?len_sn, ?len_sp; exact L) | rewrite eqb_same].
  split; (split; [split; auto|]); auto using keeps_sn, keeps_sp.
Qed.
Lemma Clear_any h hd n : (hd < length h)%nat -> Clear (h, mkDList (Some hd) n) = (Ok tt, (sn hd (Some hd) (sp hd (Some hd) h), mkDList (Some hd) 0)).
Proof using Type.
  intros L. unfold Clear. rewrite bind_hget. cbn [d_head is_nil negb].
  erewrite bind_eq; [|rewrite (bind_eq _ _ _ _ _ (st_prev_ok h _ hd _ L)); apply st_next_ok; rewrite len_sp; exact L]. reflexivity.
Qed.
Lemma clear_rep h hd fr : val h hd = Some zero -> keeps fr h -> fr hd = None ->
  ring_rep (sn hd (Some hd) (sp hd (Some hd) h)) (hd, Some []) (Some []) /\ keeps fr (sn hd (Some hd) (sp hd (Some hd) h)).
Proof using Type.
  intros V K F. pose proof (val_lt _ _ _ V) as L. split; [|auto using keeps_sn, keeps_sp]. split; cbn [fst snd].
  - now rewrite val_sn, val_sp.
  - split; [|reflexivity]. split; [exact I|]. cbn [lst]. rewrite nxt_sn by (rewrite len_sp; exact L). rewrite prv_sn, prv_sp by exact L. rewrite eqb_same.
    split; [reflexivity|]. split; [reflexivity|]. repeat constructor. intros [].
Qed.

(** With n <> 0 and no elements. *)
Lemma gone_none (o : dop T St) h hd fr n : guarded o = true -> n <> 0 -> ring h hd [] -> val h hd = Some zero -> keeps fr h -> fr hd = None ->
  gone hd fr n (Some []) (dlist_step zero o (h, mkDList (Some hd) n)) (call_without_elements zero o n).
Proof using Type.
  intros G Hn R V K F. destruct (empty_ring _ _ R) as [N Pv]. destruct (cut_rep h hd fr V K F) as [[C1 C2] [B1 B2]].
  assert (Q : forall y, dlist_step zero o (h, mkDList (Some hd) n) = (y, (h, mkDList (Some hd) n)) -> gone hd fr n (Some []) (dlist_step zero o (h, mkDList (Some hd) n)) (y, (Some [], n))).
  { intros y ->. exists (Some []). cbn [fst snd]. split; [reflexivity|]. split; [reflexivity|]. split; [split; cbn; auto|]. split; [exact K|]. now intros a [<-|[]]. }
  assert (E0 : (n =? 0) = false) by now apply Z.eqb_neq.
  destruct o; try discriminate; cbn [call_without_elements dlist_spec fst].
  - cbn [dlist_step]. unfold show, PopFront, bind. rewrite (pop_front_none h hd n R V Hn). cbn [snd negb fst ret omap].
    exists None. cbn [fst snd]. split; [reflexivity|]. split; [reflexivity|]. split; [exact C1|]. split; [exact C2|]. now intros a [<-|[]].
  - cbn [dlist_step]. unfold show, PopBack, bind. rewrite (pop_back_none h hd n R V Hn). cbn [snd negb fst ret omap].
    exists None. cbn [fst snd]. split; [reflexivity|]. split; [reflexivity|]. split; [exact B1|]. split; [exact B2|]. now intros a [<-|[]].
  - cbn [dlist_step]. unfold show. rewrite (pop_front_none h hd n R V Hn). cbn [omap].
    exists None. cbn [fst snd]. split; [reflexivity|]. split; [reflexivity|]. split; [exact C1|]. split; [exact C2|]. now intros a [<-|[]].
  - cbn [dlist_step]. unfold show. rewrite (pop_back_none h hd n R V Hn). cbn [omap].
    exists None. cbn [fst snd]. split; [reflexivity|]. split; [reflexivity|]. split; [exact B1|]. split; [exact B2|]. now intros a [<-|[]].
  - apply Q. cbn [dlist_step]. unfold show, Front. rewrite bind_IsEmpty. cbn [d_length]. rewrite E0, bind_hget. cbn [d_head].
    rewrite (bind_eq _ _ _ _ _ (ld_next_ok h _ hd _ N)), (ld_value_ok h _ hd _ V). reflexivity.
  - apply Q. cbn [dlist_step]. unfold show, Back. rewrite bind_IsEmpty. cbn [d_length]. rewrite E0, bind_hget. cbn [d_head].
    rewrite (bind_eq _ _ _ _ _ (ld_prev_ok h _ hd _ Pv)), (ld_value_ok h _ hd _ V). reflexivity.
  - apply Q. cbn [dlist_step]. unfold show, ForEach. rewrite bind_IsEmpty. cbn [d_length]. rewrite E0, bind_fuel, bind_hget. cbn [d_head].
    rewrite (bind_eq _ _ _ _ _ (ld_next_ok h _ hd _ N)). cbn [ForEach_loop]. rewrite bind_hget. cbn [d_head]. rewrite peqb_refl. reflexivity.
  - apply Q. cbn [dlist_step]. unfold show, ForEachIf. rewrite bind_IsEmpty. cbn [d_length]. rewrite E0, bind_fuel, bind_hget. cbn [d_head].
    rewrite (bind_eq _ _ _ _ _ (ld_next_ok h _ hd _ N)). cbn [ForEachIf_loop]. rewrite bind_hget. cbn [d_head]. rewrite peqb_refl. reflexivity.
  - apply Q. cbn [dlist_step]. unfold show, ForEachMutable. rewrite bind_IsEmpty. cbn [d_length]. rewrite E0, bind_fuel, bind_hget. cbn [d_head].
    rewrite (bind_eq _ _ _ _ _ (ld_next_ok h _ hd _ N)). cbn [ForEachMutable_loop]. rewrite bind_hget. cbn [d_head]. rewrite peqb_refl. reflexivity.
  - apply Q. cbn [dlist_step]. unfold show, ForEachMutableIf. rewrite bind_IsEmpty. cbn [d_length]. rewrite E0, bind_fuel, bind_hget. cbn [d_head].
    rewrite (bind_eq _ _ _ _ _ (ld_next_ok h _ hd _ N)). cbn [ForEachMutableIf_loop]. rewrite bind_hget. cbn [d_head]. rewrite peqb_refl. reflexivity.
Qed.

(** On a broken ring. *)
Lemma step_broken (o : dop T St) h hd n : asks_length o = false -> (guarded o = true -> n <> 0) -> nxt h hd = Some None -> prv h hd = Some None ->
  exists t, dlist_step zero o (h, mkDList (Some hd) n) = (Panic, (h ++ t, mkDList (Some hd) n)).
Proof using Type.
  intros Na G N Pv. assert (L := nxt_lt _ _ _ N). destruct (lt_nth _ _ L) as [nd En].
  assert (Q : forall r, dlist_step zero o (h, mkDList (Some hd) n) = (r, (h, mkDList (Some hd) n)) -> r = Panic -> exists t, dlist_step zero o (h, mkDList (Some hd) n) = (Panic, (h ++ t, mkDList (Some hd) n))).
  { intros r E ->. exists []. now rewrite app_nil_r. }
  assert (E0 : guarded o = true -> (n =? 0) = false) by (intros; apply Z.eqb_neq; auto).
  destruct o; try discriminate; cbn [dlist_step guarded] in *; try (specialize (E0 eq_refl)); unfold show in *.
  - eexists. unfold PushFront, ensureHead. erewrite bind_eq; [|rewrite bind_hget; cbn [d_head is_nil]; reflexivity]. rewrite bind_hget. cbn [d_head].
    rewrite (bind_eq _ _ _ _ _ (ld_next_ok h _ hd _ N)). rewrite bind_pnew.
    erewrite bind_eq; [|apply (ld_next_ok _ _ hd None); rewrite nxt_new, eqb_ne by lia; exact N]. reflexivity.
  - eexists. unfold PushBack, ensureHead. erewrite bind_eq; [|rewrite bind_hget; cbn [d_head is_nil]; reflexivity]. rewrite bind_hget. cbn [d_head].
    rewrite (bind_eq _ _ _ _ _ (ld_prev_ok h _ hd _ Pv)). rewrite bind_pnew.
    erewrite bind_eq; [|apply (ld_prev_ok _ _ hd None); rewrite prv_new, eqb_ne by lia; exact Pv]. reflexivity.
  - eapply Q; [|reflexivity]. unfold PopFront, TryPopFront, bind at 1. rewrite bind_IsEmpty. cbn [d_length]. rewrite E0, bind_hget. cbn [d_head]. rewrite (bind_eq _ _ _ _ _ (ld_next_ok h _ hd _ N)). reflexivity.
  - eapply Q; [|reflexivity]. unfold PopBack, TryPopBack, bind at 1. rewrite bind_IsEmpty. cbn [d_length]. rewrite E0, bind_hget. cbn [d_head]. rewrite (bind_eq _ _ _ _ _ (ld_prev_ok h _ hd _ Pv)). reflexivity.
  - eapply Q; [|reflexivity]. unfold TryPopFront. rewrite bind_IsEmpty. cbn [d_length]. rewrite E0, bind_hget. cbn [d_head]. rewrite (bind_eq _ _ _ _ _ (ld_next_ok h _ hd _ N)). reflexivity.
  - eapply Q; [|reflexivity]. unfold TryPopBack. rewrite bind_IsEmpty. cbn [d_length]. rewrite E0, bind_hget. cbn [d_head]. rewrite (bind_eq _ _ _ _ _ (ld_prev_ok h _ hd _ Pv)). reflexivity.
  - eapply Q; [|reflexivity]. unfold Front. rewrite bind_IsEmpty. cbn [d_length]. rewrite E0, bind_hget. cbn [d_head]. rewrite (bind_eq _ _ _ _ _ (ld_next_ok h _ hd _ N)). reflexivity.
  - eapply Q; [|reflexivity]. unfold Back. rewrite bind_IsEmpty. cbn [d_length]. rewrite E0, bind_hget. cbn [d_head]. rewrite (bind_eq _ _ _ _ _ (ld_prev_ok h _ hd _ Pv)). reflexivity.
  - eapply Q; [|reflexivity]. unfold ForEach. rewrite bind_IsEmpty. cbn [d_length]. rewrite E0, bind_fuel, bind_hget. cbn [d_head]. rewrite (bind_eq _ _ _ _ _ (ld_next_ok h _ hd _ N)). reflexivity.
  - eapply Q; [|reflexivity]. unfold ForEachIf. rewrite bind_IsEmpty. cbn [d_length]. rewrite E0, bind_fuel, bind_hget. cbn [d_head]. rewrite (bind_eq _ _ _ _ _ (ld_next_ok h _ hd _ N)). reflexivity.
  - eapply Q; [|reflexivity]. unfold ForEachMutable. rewrite bind_IsEmpty. cbn [d_length]. rewrite E0, bind_fuel, bind_hget. cbn [d_head]. rewrite (bind_eq _ _ _ _ _ (ld_next_ok h _ hd _ N)). reflexivity.
  - eapply Q; [|reflexivity]. unfold ForEachMutableIf. rewrite bind_IsEmpty. cbn [d_length]. rewrite E0, bind_fuel, bind_hget. cbn [d_head]. rewrite (bind_eq _ _ _ _ _ (ld_next_ok h _ hd _ N)). reflexivity.
  - eapply Q; [|reflexivity]. unfold iter_all. rewrite bind_fuel. unfold Iterate. erewrite bind_eq; [|rewrite bind_hget; cbn [d_head is_nil negb]; apply (ld_next_ok h _ hd _ N)]. reflexivity.
  - eapply Q; [|reflexivity]. unfold iter_get, Iterate. erewrite bind_eq; [|rewrite bind_hget; cbn [d_head is_nil negb]; apply (ld_next_ok h _ hd _ N)]. destruct i; reflexivity.
  - eapply Q; [|reflexivity]. unfold iter_set, Iterate. erewrite bind_eq; [|rewrite bind_hget; cbn [d_head is_nil negb]; apply (ld_next_ok h _ hd _ N)]. destruct i; reflexivity.
Qed.

Lemma ring_call_guard (o : dop T St) n c : asks_length o = false -> ring_call zero o n c =
  (if guarded o && (n =? 0) then (fst (dlist_spec zero o []), (c, n)) else
    match c with
    | None => (Panic, (None, n))
    | Some [] => if guarded o then call_without_elements zero o n
                 else let '(r, ys) := dlist_spec zero o [] in (r, (Some ys, n + zlen ys))
    | Some xs => let '(r, ys) := dlist_spec zero o xs in (r, (Some ys, n + (zlen ys - zlen xs)))
    end).
Proof using Type. destruct o; cbn; try discriminate; reflexivity. Qed.

Lemma keeps_apps fr h t : keeps fr h -> keeps fr (h ++ t).
Proof using Type. intros K a nd E. pose proof (K a nd E) as E2. rewrite nth_error_app1; [exact E2|]. apply nth_error_Some. congruence. Qed.

Lemma call_ok (o : dop T St) h hd cs c fr n : ring_rep h (hd, cs) c -> keeps fr h -> (forall a, In a (own (hd, cs)) -> fr a = None) ->
  gone hd fr n c (dlist_step zero o (h, mkDList (Some hd) n)) (ring_call zero o n c).
Proof using Type.
  intros R K F. pose proof R as [V R0]. cbn [fst snd] in V, R0.
  assert (Same : forall y, dlist_step zero o (h, mkDList (Some hd) n) = (y, (h, mkDList (Some hd) n)) -> gone hd fr n c (dlist_step zero o (h, mkDList (Some hd) n)) (y, (c, n))).
  { intros y ->. exists cs. cbn [fst snd]. auto. }
  destruct (asks_length o) eqn:Ea.
  - destruct o; try discriminate.
    + cbn [dlist_step ring_call]. unfold show. rewrite Clear_any by (now apply val_lt in V). cbn [omap]. destruct (clear_rep h hd fr V K (F hd (or_introl eq_refl))) as [C1 C2].
      exists (Some []). cbn [fst snd]. split; [reflexivity|]. split; [reflexivity|]. split; [exact C1|]. split; [exact C2|]. intros a [<-|[]]. apply F. now left.
    + cbn [ring_call]. now apply Same.
    + cbn [ring_call]. now apply Same.
  - rewrite ring_call_guard by auto. destruct (guarded o && (n =? 0)) eqn:G.
    + apply andb_true_iff in G as [G En]. apply Z.eqb_eq in En. subst n. apply Same. now apply step_none.
    + assert (Hn : guarded o = true -> n <> 0) by (intros Gd; rewrite Gd in G; cbn in G; now apply Z.eqb_neq).
      destruct c as [xs|], cs as [l|]; try contradiction.
      * destruct R0 as [Rg <-]. destruct l as [|c0 l].
        -- cbn [map]. destruct (guarded o) eqn:Gd; [apply gone_none; auto; apply F; now left|].
           pose proof (gone_shift o h hd fr [] n Ea ltac:(congruence) Rg V K F) as H. cbn [map] in H. destruct (dlist_spec zero o []) as [r ys].
           change (zlen (@nil T)) with 0 in H. rewrite Z.sub_0_r in H. exact H.
        -- pose proof (gone_shift o h hd fr (c0 :: l) n Ea ltac:(intros Gd; split; [now apply Hn|discriminate]) Rg V K F) as H. exact H.
      * destruct R0 as [N Pv]. destruct (step_broken o h hd n Ea Hn N Pv) as [t Et]. rewrite Et. exists None. cbn [fst snd].
        split; [reflexivity|]. split; [reflexivity|]. split; [|split; [now apply keeps_apps|exact F]].
        apply (ring_rep_same h); [|exact R]. intros a I. apply nth_error_app1. eapply ring_rep_lt; eauto.
Qed.

(** *** Many rings *)
Definition apart (R : list rg) : Prop := forall i j ri rj a, i <> j -> nth_error R i = Some ri -> nth_error R j = Some rj -> In a (own ri) -> ~ In a (own rj).
Definition rings_ok h (R : list rg) (cs : list (option (list T))) : Prop := Forall2 (ring_rep h) R cs /\ apart R.
Definition var_ok (R : list rg) hdr (v : option nat * Z) : Prop :=
  d_length hdr = snd v /\
  match fst v with
  | None => d_head hdr = None /\ snd v = 0
  | Some k => exists r, nth_error R k = Some r /\ d_head hdr = Some (fst r)
  end.
Definition wrel (w : shared T) (s : @dvars T) : Prop := exists R, rings_ok (fst s) R (rings w) /\ Forall2 (var_ok R) (snd s) (vars w).

Lemma F2_nth {A B} (P : A -> B -> Prop) xs ys i x : Forall2 P xs ys -> nth_error xs i = Some x -> exists y, nth_error ys i = Some y /\ P x y.
Proof using Type. intros F. revert i. induction F as [|a b xs ys H F IH]; intros [|i] E; try discriminate; cbn in *; [injection E as <-; eauto|eauto]. Qed.
Lemma F2_nth_none {A B} (P : A -> B -> Prop) xs ys i : Forall2 P xs ys -> nth_error xs i = None -> nth_error ys i = None.
Proof using Type. intros F. revert i. induction F as [|a b xs ys H F IH]; intros [|i] E; try discriminate; cbn in *; auto. Qed.
Lemma F2_upd {A B} (P : A -> B -> Prop) xs ys i x y : Forall2 P xs ys -> P x y -> Forall2 P (upd i x xs) (upd i y ys).
Proof using Type. intros F H. revert i. induction F as [|a b xs ys Hab F IH]; intros [|i]; cbn; constructor; auto. Qed.
Lemma F2_imp {A B} (P Q : A -> B -> Prop) xs ys : (forall a b, P a b -> Q a b) -> Forall2 P xs ys -> Forall2 Q xs ys.
Proof using Type. intros H F. induction F; constructor; auto. Qed.
Lemma F2_len {A B} (P : A -> B -> Prop) xs ys : Forall2 P xs ys -> length xs = length ys.
Proof using Type. intros F. induction F; cbn; auto. Qed.
Lemma nth_error_upd_if {A} i (x : A) (xs : list A) j : nth_error (upd i x xs) j = if Nat.eqb i j then match nth_error xs j with Some _ => Some x | None => None end else nth_error xs j.
Proof using Type. revert i j. induction xs as [|y xs IH]; intros [|i] [|j]; cbn; auto. now destruct (Nat.eqb i j). Qed.

Lemma upd_found {A} i (x : A) (xs : list A) : nth_error xs i = Some x -> upd i x xs = xs.
Proof using Type. revert i. induction xs as [|y xs IH]; intros [|i] E; try discriminate; cbn in *; [now injection E as ->|now rewrite IH]. Qed.

(** The heap outside one ring. *)
Definition outside h (r : rg) : nat -> option (dnode T) := fun a => if in_dec Nat.eq_dec a (own r) then None else nth_error h a.
Lemma outside_keeps h r : keeps (outside h r) h.
Proof using Type. intros a nd. unfold outside. destruct (in_dec _ _ _); [discriminate|auto]. Qed.
Lemma outside_own h r a : In a (own r) -> outside h r a = None.
Proof using Type. intros I. unfold outside. now destruct (in_dec _ _ _). Qed.
Lemma rings_call h h' R cs k r r' c' : rings_ok h R cs -> nth_error R k = Some r -> keeps (outside h r) h' -> ring_rep h' r' c' ->
  (forall a, In a (own r') -> outside h r a = None) -> rings_ok h' (upd k r' R) (upd k c' cs).
Proof using Type.
  intros [F A] Ek K R' O.
  assert (Other : forall j rj a, j <> k -> nth_error R j = Some rj -> In a (own rj) -> ~ In a (own r') /\ nth_error h' a = nth_error h a).
  { intros j rj a NE Ej I. destruct (F2_nth _ _ _ _ _ F Ej) as (cj & _ & Rj). pose proof (ring_rep_lt _ _ _ _ Rj I) as L. destruct (lt_nth _ _ L) as [nd En].
    assert (Eo : outside h r a = Some nd).
    { unfold outside. destruct (in_dec _ _ _) as [I2|_]; [|exact En]. exfalso. exact (A _ _ _ _ _ NE Ej Ek I I2). }
    split; [intros I2; apply O in I2; congruence|]. rewrite (K _ _ Eo). auto. }
  split.
  - assert (H : forall i ri ci, nth_error R i = Some ri -> nth_error cs i = Some ci -> ring_rep h ri ci) by (intros i ri ci E1 E2; destruct (F2_nth _ _ _ _ _ F E1) as (? & E3 & ?); congruence).
    assert (Gen : forall R0 cs0 n, length R0 = length cs0 -> (forall i ri ci, nth_error R0 i = Some ri -> nth_error cs0 i = Some ci -> if Nat.eqb i n then True else ring_rep h' ri ci) -> Forall2 (ring_rep h') (upd n r' R0) (upd n c' cs0)).
    { clear -R'. induction R0 as [|r0 R0 IH]; intros [|c0 cs0] n L H; try discriminate; [destruct n; constructor|]. destruct n as [|n]; cbn [upd].
      - constructor; auto. clear IH. assert (H' : forall i ri ci, nth_error R0 i = Some ri -> nth_error cs0 i = Some ci -> ring_rep h' ri ci) by (intros i; exact (H (S i))).
        clear H. cbn in L. injection L as L. revert cs0 L H'. induction R0 as [|r1 R0 IH]; intros [|c1 cs0] L H; try discriminate; constructor; [exact (H O _ _ eq_refl eq_refl)|]. apply IH; [cbn in L; lia|]. intros i. exact (H (S i)).
      - constructor; [exact (H O _ _ eq_refl eq_refl)|]. apply IH; [cbn in L; lia|]. intros i. exact (H (S i)). }
    apply Gen; [now apply F2_len in F|]. intros i ri ci E1 E2. destruct (Nat.eqb_spec i k) as [->|NE]; [exact I|].
    apply (ring_rep_same h); [|now apply (H i)]. intros a I. now apply (Other i ri a NE E1).
  - intros i j ri rj a NE Ei Ej. rewrite nth_error_upd_if in Ei, Ej.
    destruct (Nat.eqb_spec k i) as [<-|N1], (Nat.eqb_spec k j) as [<-|N2]; [congruence| | |eauto].
    + rewrite Ek in Ei. injection Ei as <-. intros I1 I2. exact (proj1 (Other j rj a ltac:(congruence) Ej I2) I1).
    + rewrite Ek in Ej. injection Ej as <-. intros I1. exact (proj1 (Other i ri a ltac:(congruence) Ei I1)).
Qed.
Lemma rings_keep h h' R cs : rings_ok h R cs -> keeps (nth_error h) h' -> rings_ok h' R cs.
Proof using Type.
  intros [F A] K. split; auto. eapply F2_imp; [|exact F]. intros r c Rr. apply (ring_rep_same h); auto. intros a I.
  destruct (lt_nth _ _ (ring_rep_lt _ _ _ _ Rr I)) as [nd En]. rewrite En. now apply K.
Qed.
Lemma rings_new h h' R cs r c : rings_ok h R cs -> keeps (nth_error h) h' -> ring_rep h' r c -> (forall a, In a (own r) -> nth_error h a = None) ->
  rings_ok h' (R ++ [r]) (cs ++ [c]).
Proof using Type.
  intros Rk K Rr O. destruct (rings_keep _ _ _ _ Rk K) as [F' A']. destruct Rk as [F A]. split; [apply Forall2_app; auto|].
  assert (X : forall i ri a, nth_error R i = Some ri -> In a (own ri) -> ~ In a (own r)).
  { intros i ri a Ei I I2. destruct (F2_nth _ _ _ _ _ F Ei) as (ci & _ & Ri). apply O in I2. apply nth_error_None in I2. pose proof (ring_rep_lt _ _ _ _ Ri I). lia. }
  assert (S : forall i ri, nth_error (R ++ [r]) i = Some ri -> nth_error R i = Some ri \/ i = length R /\ ri = r).
  { intros i ri E. destruct (Nat.lt_ge_cases i (length R)) as [L|L]; [rewrite nth_error_app1 in E by auto; auto|].
    rewrite nth_error_app2 in E by auto. destruct (i - length R)%nat as [|m] eqn:Em; [injection E as <-; right; split; [lia|auto]|destruct m; discriminate]. }
  intros i j ri rj a NE Ei Ej I1 I2. destruct (S _ _ Ei) as [Ei'|[-> ->]], (S _ _ Ej) as [Ej'|[-> ->]]; [exact (A _ _ _ _ _ NE Ei' Ej' I1 I2)|eapply X; eauto|eapply X; eauto|congruence].
Qed.
Lemma var_upd R k r r' hdr v : nth_error R k = Some r -> fst r' = fst r -> var_ok R hdr v -> var_ok (upd k r' R) hdr v.
Proof using Type.
  intros Ek Ef (L & H). split; auto. destruct (fst v) as [j|]; auto. destruct H as (rj & Ej & Eh). rewrite nth_error_upd_if.
  destruct (Nat.eqb_spec k j) as [<-|NE]; [|eauto]. rewrite Ej. exists r'. split; auto. congruence.
Qed.
Lemma var_app R t hdr v : var_ok R hdr v -> var_ok (R ++ t) hdr v.
Proof using Type.
  intros (L & H). split; auto. destruct (fst v) as [j|]; auto. destruct H as (rj & Ej & Eh). exists rj. split; auto.
  rewrite nth_error_app1; auto. apply nth_error_Some. congruence.
Qed.

(** The first push of a variable makes its ring. *)
Lemma fresh_ok (o : dop T St) h : exists h' hdr' l', dlist_step zero o (h, mkDList None 0) = (fst (dlist_spec zero o []), (h', hdr')) /\ keeps (nth_error h) h' /\
  map snd l' = snd (dlist_spec zero o []) /\
  (l' = [] /\ hdr' = mkDList None 0 \/
   l' <> [] /\ exists hd, hdr' = mkDList (Some hd) (zlen l') /\ ring_rep h' (hd, Some l') (Some (map snd l')) /\ (forall a, In a (hd :: addrs l') -> nth_error h a = None)).
Proof using Type.
  assert (R : rep (nth_error h) [] (h, mkDList None 0)) by (split; [apply keeps_refl|split; reflexivity]).
  destruct (step_moved zero _ [] _ o R) as (l' & V & R' & D). destruct (step_ok zero _ [] _ o (ex_intro _ [] (conj eq_refl R))) as [Er _]. cbn [map] in *.
  destruct (dlist_step zero o (h, mkDList None 0)) as [r [h' hdr']]. cbn [fst snd] in *. exists h', hdr', l'. split; [congruence|].
  destruct R' as (K & L & R'). cbn [fst snd] in *. split; [exact K|]. split; [exact V|].
  destruct hdr' as [[hd|] n]; cbn [d_head d_length] in *; subst n.
  - right. assert (P : end_after zero (h, mkDList None 0) (h', mkDList (Some hd) (zlen l')) /\ l' <> []).
    { destruct o; cbn [dmoved dlist_spec snd] in *; try (exfalso; destruct D as [[D _] _]; discriminate D); (split; [apply D|]; intros ->; discriminate V). }
    destruct P as [(hd' & E1 & [[E2 _]|[_ E2]]) NE]; [discriminate|]. cbn [fst snd d_head] in *. injection E1 as <-. split; auto. exists hd. destruct R' as [Rg F].
    split; [reflexivity|]. split; [split; cbn [fst snd]; auto|]. exact F.
  - left. subst l'. auto.
Qed.
Lemma of_ok (vs : list T) h : exists h' hdr' l', DListOf zero vs (h, empty_dlist) = (Ok tt, (h', hdr')) /\ keeps (nth_error h) h' /\
  map snd l' = vs /\
  (l' = [] /\ hdr' = mkDList None 0 \/
   l' <> [] /\ exists hd, hdr' = mkDList (Some hd) (zlen l') /\ ring_rep h' (hd, Some l') (Some (map snd l')) /\ (forall a, In a (hd :: addrs l') -> nth_error h a = None)).
Proof using Type.
  unfold DListOf. rewrite bind_hmod.
  assert (Gen : forall (ws : list T) l s, rep (nth_error h) l s -> (forall hd, d_head (snd s) = Some hd -> val (fst s) hd = Some zero) -> (d_head (snd s) <> None -> l <> []) ->
    exists s' l', DListOf_loop zero ws s = (Ok tt, s') /\ rep (nth_error h) l' s' /\ map snd l' = map snd l ++ ws /\ (forall hd, d_head (snd s') = Some hd -> val (fst s') hd = Some zero) /\ (d_head (snd s') <> None -> l' <> [])).
  { induction ws as [|v ws IH]; intros l s R V NE; cbn [DListOf_loop].
    - exists s, l. rewrite app_nil_r. auto.
    - destruct (PushBack_ok zero _ l s v R) as (s1 & a & E & R1). pose proof (PushBack_end zero _ l s v R) as D. rewrite E in D. cbn [snd] in D. rewrite (bind_eq _ _ _ _ _ E).
      destruct (IH _ s1 R1) as (s2 & l2 & E2 & R2 & V2 & Z2 & N2).
      + intros hd E1. destruct D as (hd' & E3 & [[E4 E5]|[E4 E5]]); rewrite E1 in E3; injection E3 as <-; auto. rewrite E5. auto.
      + intros _ K. destruct l; discriminate.
      + exists s2, l2. rewrite map_app in V2. cbn [map snd] in V2. rewrite <- app_assoc in V2. auto. }
  destruct (Gen vs [] (h, empty_dlist)) as ([h' [[hd|] n]] & l' & E & (K & L & R) & V & Z & N).
  - split; [apply keeps_refl|split; reflexivity].
  - discriminate.
  - cbn. congruence.
  - cbn [fst snd d_head d_length] in *. subst n. exists h', (mkDList (Some hd) (zlen l')), l'. split; [exact E|]. split; [exact K|]. split; [exact V|]. right. split; [now apply N|].
    exists hd. split; [reflexivity|]. destruct R as [Rg F]. split; [split; cbn [fst snd]; auto|exact F].
  - cbn [fst snd d_head d_length] in *. subst n l'. exists h', (mkDList None 0), []. split; [exact E|]. split; [exact K|]. split; [exact V|]. left. auto.
Qed.

Lemma wrel_init : wrel no_vars ([], []).
Proof using Type. exists []. split; [split; [constructor|]|constructor]. intros i j ri rj a _ E. destruct i; discriminate. Qed.
Lemma var_eta hdr : hdr = mkDList (d_head hdr) (d_length hdr).
Proof using Type. now destruct hdr. Qed.
Lemma F2_nth' {A B} (P : A -> B -> Prop) xs ys i y : Forall2 P xs ys -> nth_error ys i = Some y -> exists x, nth_error xs i = Some x /\ P x y.
Proof using Type. intros F. revert i. induction F as [|a b xs ys H F IH]; intros [|i] E; try discriminate; cbn in *; [injection E as <-; eauto|eauto]. Qed.
Lemma F2_none' {A B} (P : A -> B -> Prop) xs ys i : Forall2 P xs ys -> nth_error ys i = None -> nth_error xs i = None.
Proof using Type. intros F. revert i. induction F as [|a b xs ys H F IH]; intros [|i] E; try discriminate; cbn in *; auto. Qed.

Lemma vars_step_ok w s (o : vop T St) : wrel w s ->
  fst (vars_step zero o s) = fst (share_spec zero o w) /\ wrel (snd (share_spec zero o w)) (snd (vars_step zero o s)).
Proof using Type.
  intros (R & Rk & Fv). destruct s as [h hs], w as [cs vs]. cbn [fst snd rings vars] in *.
  destruct o as [|ws|i|i j|i o].
  - cbn. split; [reflexivity|]. exists R. split; auto. apply Forall2_app; auto. constructor; [|constructor]. split; cbn; auto.
  - destruct (of_ok ws h) as (h' & hdr' & l' & E & K & V & C). cbn [vars_step fst snd]. rewrite E. cbn [omap].
    destruct C as [[-> ->]|(NE & hd & -> & Rr & O)].
    + subst ws. cbn. split; [reflexivity|]. exists R. cbn [fst snd rings vars]. split; [eapply rings_keep; eauto|]. apply Forall2_app; auto. constructor; [|constructor]. split; cbn; auto.
    + assert (Sp : share_spec zero (VOf ws) (mkShared cs vs) = (@Ok (res T St) (RObs ONone), mkShared (cs ++ [Some ws]) (vs ++ [(Some (length cs), zlen ws)]))).
      { destruct ws; [destruct l'; [congruence|discriminate]|reflexivity]. }
      rewrite Sp. cbn [fst snd]. split; [reflexivity|]. exists (R ++ [(hd, Some l')]). cbn [fst snd rings vars]. split; [rewrite <- V; eapply rings_new; eauto|].
      apply Forall2_app; [eapply F2_imp; [|exact Fv]; intros; now apply var_app|]. constructor; [|constructor]. split; cbn [fst snd d_length d_head].
      * rewrite <- V. unfold zlen. now rewrite map_length.
      * exists (hd, Some l'). rewrite <- (F2_len _ _ _ (proj1 Rk)), nth_error_app2, Nat.sub_diag by lia. auto.
  - cbn [vars_step share_spec fst snd rings vars]. destruct (nth_error vs i) as [v|] eqn:Ei.
    + destruct (F2_nth' _ _ _ _ _ Fv Ei) as (hdr & Eh & Hv). rewrite Eh. cbn. split; [reflexivity|]. exists R. cbn. split; auto. apply Forall2_app; auto.
    + rewrite (F2_none' _ _ _ _ Fv Ei). split; [reflexivity|]. exists R. cbn. auto.
  - cbn [vars_step share_spec fst snd rings vars]. destruct (nth_error vs i) as [v|] eqn:Ei.
    + destruct (F2_nth' _ _ _ _ _ Fv Ei) as (hdr & Eh & Hv). rewrite Eh. destruct (nth_error vs j) as [vj|] eqn:Ej.
      * destruct (F2_nth' _ _ _ _ _ Fv Ej) as (hdrj & Ehj & Hvj). rewrite Ehj. cbn. split; [reflexivity|]. exists R. cbn. split; auto. now apply F2_upd.
      * rewrite (F2_none' _ _ _ _ Fv Ej). split; [reflexivity|]. exists R. cbn. auto.
    + rewrite (F2_none' _ _ _ _ Fv Ei). split; [reflexivity|]. exists R. cbn. auto.
  - cbn [vars_step share_spec fst snd rings vars]. destruct (nth_error vs i) as [[k n]|] eqn:Ei.
    2: { rewrite (F2_none' _ _ _ _ Fv Ei). split; [reflexivity|]. exists R. cbn. auto. }
    destruct (F2_nth' _ _ _ _ _ Fv Ei) as (hdr & Eh & (Ln & Hv)). rewrite Eh. cbn [fst snd] in *. destruct k as [k|].
    + destruct Hv as ([hd c] & Ek & Ehd). cbn [fst] in Ehd. rewrite (var_eta hdr), Ehd, Ln. destruct (F2_nth _ _ _ _ _ (proj1 Rk) Ek) as (ck & Eck & Rr).
      rewrite (nth_error_nth _ _ None Eck).
      pose proof (call_ok o h hd c ck (outside h (hd, c)) n Rr (outside_keeps _ _) (outside_own _ _)) as (c' & Er & Eh' & Rr' & K' & O').
      destruct (dlist_step zero o (h, mkDList (Some hd) n)) as [r1 [h1 hdr1]]. destruct (ring_call zero o n ck) as [r2 [c2 n2]]. cbn [fst snd] in *. subst r1 hdr1.
      split; [reflexivity|]. exists (upd k (hd, c') R). cbn [fst snd rings vars]. split; [eapply rings_call; eauto|].
      apply F2_upd; [eapply F2_imp; [|exact Fv]; intros; eapply var_upd; eauto|]. split; cbn [d_length d_head fst snd]; [reflexivity|].
      exists (hd, c'). rewrite nth_error_upd_if, Nat.eqb_refl, Ek. auto.
    + destruct Hv as [Hh ->]. rewrite (var_eta hdr), Hh, Ln. destruct (fresh_ok o h) as (h' & hdr' & l' & E & K & V & C). rewrite E.
      destruct (dlist_spec zero o []) as [r ys]. cbn [fst snd] in *. destruct C as [[-> ->]|(NE & hd & -> & Rr & O)].
      * cbn in V. subst ys. split; [reflexivity|]. exists R. cbn [fst snd rings vars]. split; [eapply rings_keep; eauto|].
        assert (U : upd i (None, 0) vs = vs) by now apply upd_found. rewrite <- U. apply F2_upd; auto. split; cbn; auto.
      * subst ys. destruct l' as [|c0 l']; [congruence|]. cbn [map]. change (snd c0 :: map snd l') with (map snd (c0 :: l')). cbn [fst snd].
        split; [reflexivity|]. exists (R ++ [(hd, Some (c0 :: l'))]). cbn [fst snd rings vars]. split; [eapply rings_new; eauto|].
        apply F2_upd; [eapply F2_imp; [|exact Fv]; intros; now apply var_app|]. split; cbn [d_length d_head fst snd]; [unfold zlen; now rewrite map_length|].
        exists (hd, Some (c0 :: l')). rewrite <- (F2_len _ _ _ (proj1 Rk)), nth_error_app2, Nat.sub_diag by lia. auto.
Qed.
Lemma vars_run (ops : list (vop T St)) w s : wrel w s ->
  fst (run (vars_step zero) ops s) = fst (run (share_spec zero) ops w) /\ wrel (snd (run (share_spec zero) ops w)) (snd (run (vars_step zero) ops s)).
Proof using Type. apply (run_sim (vars_step zero) (share_spec zero) wrel). intros. now apply vars_step_ok. Qed.
End DC3.

(** *** One user of a ring *)
Lemma run_length {S Op R} (step : Op -> S -> R * S) ops : forall s, length (fst (run step ops s)) = length ops.
Proof. induction ops as [|o ops IH]; intros s; [reflexivity|]. cbn [run]. destruct (step o s) as [r s1]. specialize (IH s1). destruct (run step ops s1). cbn [fst length] in *. now rewrite IH. Qed.
Section DC4.
Context {T St : Type}.
Variable zero : T.
Definition wf_shared (w : shared T) : Prop := forall i k n, nth_error (vars w) i = Some (Some k, n) -> (k < length (rings w))%nat.
Lemma nth_snoc {A} (xs : list A) x i y : nth_error (xs ++ [x]) i = Some y -> nth_error xs i = Some y \/ i = length xs /\ y = x.
Proof using Type.
  intros E. destruct (Nat.lt_ge_cases i (length xs)) as [L|L]; [rewrite nth_error_app1 in E by auto; auto|].
  rewrite nth_error_app2 in E by auto. destruct (i - length xs)%nat as [|m] eqn:Em; [injection E as <-; right; split; [lia|auto]|destruct m; discriminate].
Qed.
Lemma wf_step (o : vop T St) w : wf_shared w -> wf_shared (snd (share_spec zero o w)).
Proof using Type.
  intros W. destruct w as [cs vs]. unfold wf_shared in *. cbn [rings vars] in *.
  destruct o as [|ws|i|i j|i o]; cbn [share_spec rings vars].
  - intros i k n E. cbn [snd rings vars] in *. apply nth_snoc in E as [E|[_ E]]; [eauto|discriminate].
  - destruct ws as [|v ws]; cbn [snd rings vars]; intros i k n E; apply nth_snoc in E as [E|[_ E]]; try discriminate; [eauto| |]; rewrite ?app_length; cbn [length].
    + apply W in E. lia.
    + injection E as -> ->. lia.
  - destruct (nth_error vs i) as [v|] eqn:Ei; cbn [snd rings vars]; [|exact W]. intros j k n E. apply nth_snoc in E as [E|[_ E]]; [eauto|]. subst v. eauto.
  - destruct (nth_error vs i) as [v|] eqn:Ei; cbn [snd rings vars]; [|exact W]. destruct (nth_error vs j) as [vj|] eqn:Ej; cbn [snd rings vars]; [|exact W].
    intros j' k n E. rewrite nth_error_upd_if in E. destruct (Nat.eqb i j'); [|eauto]. destruct (nth_error vs j'); [|discriminate]. injection E as ->. eauto.
  - destruct (nth_error vs i) as [[[k|] n]|] eqn:Ei; cbn [snd rings vars]; [| |exact W].
    + destruct (ring_call zero o n (nth k cs None)) as [r [c n']]. cbn [snd rings vars]. intros j k' m E. rewrite upd_length. rewrite nth_error_upd_if in E.
      destruct (Nat.eqb i j); [|eauto]. destruct (nth_error vs j); [|discriminate]. injection E as <- _. eauto.
    + destruct (dlist_spec zero o []) as [r [|y ys]]; cbn [snd rings vars]; [exact W|]. intros j k' m E. rewrite app_length. cbn [length]. rewrite nth_error_upd_if in E.
      destruct (Nat.eqb i j); [|apply W in E; lia]. destruct (nth_error vs j); [|discriminate]. injection E as <- _. lia.
Qed.
Lemma zlen_cons_nz (x : T) xs : (zlen (x :: xs) =? 0) = false.
Proof using Type. apply Z.eqb_neq. unfold zlen. cbn [length]. lia. Qed.
Lemma ring_call_order (o : dop T St) xs : ring_call zero o (zlen xs) (Some xs) =
  (fst (dlist_spec zero o xs), (Some (snd (dlist_spec zero o xs)), zlen (snd (dlist_spec zero o xs)))).
Proof using Type.
  destruct (asks_length o) eqn:Ea.
  - destruct o; try discriminate; cbn; auto. destruct xs; reflexivity.
  - rewrite ring_call_guard by auto. destruct xs as [|x xs].
    + change (zlen (@nil T)) with 0. cbn [Z.eqb]. rewrite andb_true_r. destruct (guarded o) eqn:G; [|now destruct (dlist_spec zero o [])]. destruct o; try discriminate; reflexivity.
    + rewrite zlen_cons_nz, andb_false_r. destruct (dlist_spec zero o (x :: xs)) as [r ys]. cbn [fst snd]. do 3 f_equal. lia.
Qed.
Lemma one_step i (o : vop T St) w xs : wf_shared w -> in_order w i xs ->
  match o with VAssign j _ => j <> i | VCall j _ => j = i \/ ~ sharing w i j | _ => True end ->
  match through i o with
  | Some c => fst (share_spec zero o w) = fst (dlist_spec zero c xs) /\ in_order (snd (share_spec zero o w)) i (snd (dlist_spec zero c xs))
  | None => in_order (snd (share_spec zero o w)) i xs
  end.
Proof using Type.
  intros W I C. destruct w as [cs vs]. unfold in_order in *. cbn [rings vars] in *.
  assert (Li : exists v, nth_error vs i = Some v) by (destruct (nth_error vs i); [eauto|contradiction]). destruct Li as [v Ev].
  assert (Lt : (i < length vs)%nat) by (apply nth_error_Some; congruence).
  assert (App : forall cs' v', match nth_error (vs ++ [v']) i with Some (None, n) => xs = [] /\ n = 0 | Some (Some k, n) => nth_error (cs ++ cs') k = Some (Some xs) /\ n = zlen xs | None => False end).
  { intros cs' v'. rewrite nth_error_app1 by auto. destruct (nth_error vs i) as [[[k|] n]|] eqn:E; auto. destruct I as [I ->]. split; auto. rewrite nth_error_app1; auto. apply nth_error_Some. congruence. }
  pose proof (fun v' => App [] v') as App0. rewrite app_nil_r in App0.
  destruct o as [|ws|i'|i' j'|i' o]; cbn [through share_spec rings vars].
  - apply App0.
  - destruct ws; cbn [snd rings vars]; [apply App0|apply App].
  - destruct (nth_error vs i') as [v'|]; cbn [snd rings vars]; [apply App0|exact I].
  - destruct (nth_error vs i') as [v'|]; cbn [snd rings vars]; [|exact I]. destruct (nth_error vs j') as [vj|]; cbn [snd rings vars]; [|exact I].
    rewrite nth_error_upd_if. destruct (Nat.eqb_spec i' i); [contradiction|exact I].
  - destruct (Nat.eqb_spec i' i) as [->|NE].
    + rewrite Ev in *. destruct v as [[k|] n].
      * destruct I as [Ek ->]. rewrite (nth_error_nth _ _ None Ek), ring_call_order. cbn [fst snd rings vars]. split; [reflexivity|].
        rewrite nth_error_upd_if, Nat.eqb_refl, Ev. rewrite nth_error_upd_if, Nat.eqb_refl, Ek. auto.
      * destruct I as [-> ->]. destruct (dlist_spec zero o []) as [r [|y ys]]; cbn [fst snd rings vars]; (split; [reflexivity|]); [rewrite Ev; auto|].
        rewrite nth_error_upd_if, Nat.eqb_refl, Ev. rewrite nth_error_app2, Nat.sub_diag by lia. auto.
    + destruct C as [C|C]; [contradiction|]. destruct (nth_error vs i') as [[[k|] n]|] eqn:Ei'; cbn [snd rings vars]; [| |exact I].
      * destruct (ring_call zero o n (nth k cs None)) as [r [c n']]. cbn [snd rings vars]. rewrite nth_error_upd_if. destruct (Nat.eqb_spec i' i); [contradiction|].
        rewrite Ev in *. destruct v as [[k0|] m0]; [|exact I]. rewrite nth_error_upd_if. destruct (Nat.eqb_spec k k0) as [->|]; [|exact I]. exfalso. apply C. exists k0, m0, n. auto.
      * destruct (dlist_spec zero o []) as [r [|y ys]]; cbn [snd rings vars]; [exact I|]. rewrite nth_error_upd_if. destruct (Nat.eqb_spec i' i); [contradiction|].
        rewrite Ev in *. destruct v as [[k0|] m0]; [|exact I]. destruct I as [Ek ->]. split; auto. rewrite nth_error_app1; auto. apply nth_error_Some. congruence.
Qed.
Lemma wf_run (ops : list (vop T St)) : forall w, wf_shared w -> wf_shared (snd (run (share_spec zero) ops w)).
Proof using Type.
  induction ops as [|o ops IH]; intros w W; [exact W|]. cbn [run]. pose proof (wf_step o w W) as W1. destruct (share_spec zero o w) as [r w1]. cbn [snd] in W1. specialize (IH w1 W1).
  destruct (run (share_spec zero) ops w1). exact IH.
Qed.
Lemma one_run i (ops : list (vop T St)) : forall w xs, wf_shared w -> in_order w i xs -> only_user zero i ops w ->
  shown_through i ops (fst (run (share_spec zero) ops w)) = fst (run (dlist_spec zero) (calls_through i ops) xs) /\
  in_order (snd (run (share_spec zero) ops w)) i (snd (run (dlist_spec zero) (calls_through i ops) xs)).
Proof using Type.
  induction ops as [|o ops IH]; intros w xs W I U; [cbn; auto|]. cbn [only_user] in U. destruct U as [C U].
  pose proof (one_step i o w xs W I C) as H. pose proof (wf_step o w W) as W1. cbn [run calls_through]. destruct (share_spec zero o w) as [r w1] eqn:Es. cbn [fst snd] in *.
  destruct (through i o) as [c|] eqn:Et.
  - destruct H as [Er I1]. destruct (IH w1 _ W1 I1 U) as [E2 I2]. cbn [run]. destruct (dlist_spec zero c xs) as [r' ys]. cbn [fst snd] in *.
    destruct (run (share_spec zero) ops w1) as [rs w2]. destruct (run (dlist_spec zero) (calls_through i ops) ys) as [rs' zs]. cbn [fst snd shown_through] in *. rewrite Et, Er, E2. auto.
  - destruct (IH w1 _ W1 H U) as [E2 I2]. destruct (run (share_spec zero) ops w1) as [rs w2]. cbn [fst snd shown_through] in *. rewrite Et. auto.
Qed.
End DC4.
