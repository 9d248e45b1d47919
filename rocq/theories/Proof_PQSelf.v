(** Queues whose less function uses the queue. *)
From Verif Require Import BaseLemmas Trace Spec Proof_Mem Model_Heap Proof_Heap Model_PriorityQueue Model_PQSelf Spec_PQSelf.

Lemma bind_stop {S A B} (p : M S A) (k : A -> M S B) s s' : p s = (Panic, s') -> bind p k s = (Panic, s').
Proof. intros E. unfold bind. now rewrite E. Qed.

(** ** Less functions that only look *)
Section Looking.
Context {T X : Type}.
Variables (f : T -> T -> bool) (R : Z -> X -> X -> Prop) (less : T -> T -> @QP T X bool).
Hypothesis L : looks_as f R less.
Hypothesis Rr : forall n x, R n x x.
Hypothesis Rt : forall n x y z, R n x y -> R n y z -> R n x z.
Implicit Types (m : mem T) (x : X).

Section Frame.
Variables h hc : slice.
(** q does to the slice h what the window program p does. *)
Definition sim {A} (p : W T A) (q : @QP T X A) : Prop :=
  forall m x, wf_slice m h -> wf_slice m hc -> 0 < s_len hc ->
  exists o w x', p (contents m h) = (o, w) /\ zlen w = s_len h /\ q (@pair (cell T) X (m, hc) x) = (o, @pair (cell T) X (write_at m h 0 w, hc) x') /\ R (s_len hc) x x'.

Lemma sim_ret {A} (a : A) : sim (ret a) (ret a).
Proof using Rr. intros m x W _ _. exists (Ok a), (contents m h), x. split; auto. split; [now apply zlen_contents|]. rewrite write_at_same by auto. split; [reflexivity|apply Rr]. Qed.
Lemma sim_nofuel {A} : sim (@nofuel _ A) nofuel.
Proof using Rr. intros m x W _ _. exists NoFuel, (contents m h), x. split; auto. split; [now apply zlen_contents|]. rewrite write_at_same by auto. split; [reflexivity|apply Rr]. Qed.
Lemma sim_bind {A B} (p : W T A) q (k : A -> W T B) (k' : A -> @QP T X B) :
  sim p q -> (forall a, sim (k a) (k' a)) -> sim (bind p k) (bind q k').
Proof using Rt Rr.
  intros Hp Hk m x W Wc L0. destruct (Hp m x W Wc L0) as (o & w & x1 & E & Ew & Eq & R1). unfold bind. rewrite E, Eq.
  pose proof W as (A1 & A2 & A3 & A4).
  destruct o as [a| |]; [|exists Panic, w, x1; auto|exists NoFuel, w, x1; auto].
  destruct (Hk a (write_at m h 0 w) x1) as (o2 & w2 & x2 & E2 & Ew2 & Eq2 & R2); [now apply wf_write_self|apply wf_write_at; auto; lia|auto|].
  rewrite contents_write_at in E2 by auto. rewrite write_at_twice in Eq2 by auto. exists o2, w2, x2. split; auto. split; auto. split; auto. eapply Rt; eauto.
Qed.
Lemma sim_win {A} (p : W T A) : (forall l, zlen (snd (p l)) = zlen l) -> sim p (on_queue (lift_mem (on_slice h p))).
Proof using Rr.
  intros H m x W Wc L0. destruct (p (contents m h)) as [o w] eqn:E. exists o, w, x. split; auto. pose proof (H (contents m h)) as Hl. rewrite E in Hl. cbn [snd] in Hl.
  rewrite zlen_contents in Hl by auto. split; auto. split; [|apply Rr]. unfold on_queue, lift_mem, on_slice. cbn [fst snd]. now rewrite E.
Qed.
Lemma sim_less a b : sim (ret (f a b)) (less a b).
Proof using L.
  intros m x W Wc L0. destruct (L m hc x a b Wc L0) as (x' & E & R1). exists (Ok (f a b)), (contents m h), x'. split; auto. split; [now apply zlen_contents|].
  rewrite write_at_same by auto. auto.
Qed.
Lemma load_len i (l : list T) : zlen (snd (wload i l)) = zlen l.
Proof. unfold wload. now destruct (zget l i). Qed.
Lemma store_len i v (l : list T) : zlen (snd (wstore i v l)) = zlen l.
Proof. unfold wstore. destruct (zget l i); auto. apply zlen_zupd. Qed.
Lemma swap_len i j (l : list T) : zlen (snd (heapSwap i j l)) = zlen l.
Proof.
  unfold heapSwap, wswap, bind, wload. destruct (zget l j) as [b|]; auto. destruct (zget l i) as [a|]; auto.
  pose proof (store_len i b l) as H1. destruct (wstore i b l) as [[[]| |] l1]; cbn [snd] in *; auto. now rewrite store_len.
Qed.
Lemma sim_load i : sim (wload i) (h_load h i).
Proof using Rr. apply sim_win. apply load_len. Qed.
Lemma sim_swap i j : sim (heapSwap i j) (h_swap h i j).
Proof using Rr. apply sim_win. apply swap_len. Qed.
Lemma sim_up fuel : forall j, sim (heapUpFunc_loop f fuel j) (heapUp_self less h fuel j).
Proof using Rt Rr L.
  induction fuel as [|fu IH]; intros j; cbn [heapUpFunc_loop heapUp_self]; [apply sim_nofuel|]. cbv zeta. destruct (Z.quot (j - 1) 2 =? j); [apply sim_ret|].
  apply sim_bind; [apply sim_load|]. intros hj. apply sim_bind; [apply sim_load|]. intros hi.
  apply (sim_bind (ret (f hj hi)) _ (fun b => if negb b then ret tt else bind (heapSwap (Z.quot (j - 1) 2) j) (fun _ => heapUpFunc_loop f fu (Z.quot (j - 1) 2)))); [apply sim_less|].
  intros b. destruct (negb b); [apply sim_ret|]. apply sim_bind; [apply sim_swap|]. intros _. apply IH.
Qed.
Lemma sim_down fuel : forall i0 n i, sim (heapDownFunc_loop f fuel i0 n i) (heapDown_self less h fuel i0 n i).
Proof using Rt Rr L.
  induction fuel as [|fu IH]; intros i0 n i; cbn [heapDownFunc_loop heapDown_self]; [apply sim_nofuel|]. cbv zeta. destruct ((wrap64 (2 * i + 1) >=? n) || (wrap64 (2 * i + 1) <? 0)); [apply sim_ret|].
  apply sim_bind.
  { destruct (wrap64 (2 * i + 1) + 1 <? n); [|apply sim_ret]. apply sim_bind; [apply sim_load|]. intros h2. apply sim_bind; [apply sim_load|]. intros h1. apply sim_less. }
  intros right. set (j := if right then _ else _).
  apply sim_bind; [apply sim_load|]. intros hj. apply sim_bind; [apply sim_load|]. intros hi.
  apply (sim_bind (ret (f hj hi)) _ (fun b => if negb b then ret (i >? i0) else bind (heapSwap i j) (fun _ => heapDownFunc_loop f fu i0 n j))); [apply sim_less|].
  intros b. destruct (negb b); [apply sim_ret|]. apply sim_bind; [apply sim_swap|]. intros _. apply IH.
Qed.
End Frame.

Variable zero : T.
Variable grow : Z -> Z -> Z.
(** The length less sees during a call. *)
Definition seen (o : pq_op T) (n : Z) : Z := match o with PPush _ => n + 1 | _ => n end.
Lemma look_step o m h x : wf_slice m h -> (s_len h < max_int \/ forall v, o <> PPush v) ->
  exists r m' h' x', pq_step_self zero grow less o ((m, h), x) = (r, ((m', h'), x')) /\
    pq_step zero grow o (mkPQ (m, h) (pqFunc f)) = (r, mkPQ (m', h') (pqFunc f)) /\
    wf_slice m' h' /\ R (seen o (s_len h)) x x' /\ s_len h' <= s_len h + zlen (pushed [o]).
Proof using Rt Rr L.
  intros W Hn. pose proof W as (A1 & A2 & A3 & A4).
  destruct o as [v| | | | |]; cbn [pq_step_self pq_step seen].
  - destruct Hn as [Hn|Hn]; [|now destruct (Hn v)].
    unfold observe, PushHeap_self, PQ_Push, on_heap, PushHeapFunc. cbn [pq_impl pq_heap].
    destruct (append_list_ok zero grow h [v] m W) as (h1 & m1 & Ea & W1 & C1 & L1 & _). change (zlen [v]) with 1 in L1.
    unfold bind at 1, on_queue at 1, get_hdr at 1. cbn [fst snd]. replace (max_int <=? s_len h) with false by (symmetry; apply Z.leb_gt; lia).
    unfold bind at 1, on_queue at 1, lift_mem at 1. cbn [fst snd]. rewrite Ea. unfold bind at 1, on_queue at 1, set_hdr at 1. cbn [fst snd].
    unfold bind at 1, get_hdr at 1. unfold bind at 1, lift_mem at 1. cbn [fst snd]. rewrite Ea. unfold bind at 1, set_hdr at 1. cbn [fst snd].
    destruct (sim_up h1 h1 (S (S (Z.to_nat (s_len h1 - 1)))) (s_len h1 - 1) m1 x W1 W1 ltac:(lia)) as (o & w & x' & E & Ew & Eq & R1).
    rewrite Eq. unfold lift_mem, on_slice, heapUpFunc. cbn [fst snd]. rewrite E. rewrite L1 in R1.
    exists (omap (fun _ => ONone) o), (write_at m1 h1 0 w), h1, x'. split; auto. split; auto. split; [now apply wf_write_self|]. split; auto. change (zlen (pushed [PPush v])) with 1. lia.
  - unfold observe, PopHeap_self, PQ_Pop, on_heap, PopHeapFunc. cbn [pq_impl pq_heap]. change (zlen (pushed [@PPop T])) with 0.
    unfold bind at 1, on_queue at 1, get_hdr at 1. cbn [fst snd]. rewrite (bind_Ok get_hdr _ (m, h) h (m, h) eq_refl). cbv zeta.
    destruct (Z_lt_le_dec 0 (s_len h)) as [Lp|Lp].
    + pose proof (sim_bind h h _ _ _ _ (sim_swap h h 0 (s_len h - 1)) (fun _ => sim_down h h (S (Z.to_nat (s_len h - 1))) 0 (s_len h - 1) 0) m x W W Lp) as (o & w & x' & E & Ew & Eq & R1).
      assert (Er : reslice h 0 (s_len h - 1) = Ok (mkSlice (s_arr h) (s_off h + 0) (s_len h - 1 - 0) (s_cap h - 0))).
      { unfold reslice. replace ((0 <=? 0) && (0 <=? s_len h - 1) && (s_len h - 1 <=? s_cap h)) with true; auto. symmetry. rewrite !andb_true_iff, !Z.leb_le. lia. }
      assert (Wr : forall m', wf_slice m' h -> wf_slice m' (mkSlice (s_arr h) (s_off h + 0) (s_len h - 1 - 0) (s_cap h - 0))).
      { intros m' (B1 & B2 & B3 & B4). unfold wf_slice, arr_of in *. cbn [s_arr s_off s_len s_cap]. lia. }
      (* both programs: swap, down, and the rest *)
      assert (S1 : forall (B : Type) (k : @QP T X B), bind (h_swap h 0 (s_len h - 1)) (fun _ => bind (heapDown_self less h (S (Z.to_nat (s_len h - 1))) 0 (s_len h - 1) 0) (fun _ => k)) (@pair (cell T) X (m, h) x) =
        match o with Ok _ => k (@pair (cell T) X (write_at m h 0 w, h) x') | Panic => (Panic, @pair (cell T) X (write_at m h 0 w, h) x') | NoFuel => (NoFuel, @pair (cell T) X (write_at m h 0 w, h) x') end).
      { intros B k. unfold bind in Eq. unfold bind. destruct (h_swap h 0 (s_len h - 1) (@pair (cell T) X (m, h) x)) as [[u| |] s1]; [rewrite Eq; now destruct o|now injection Eq as <- ->|now injection Eq as <- ->]. }
      rewrite S1. clear S1 Eq.
      assert (S2 : forall (B : Type) (k : M (cell T) B), bind (lift_mem (on_slice h (heapSwap 0 (s_len h - 1)))) (fun _ => bind (lift_mem (on_slice h (heapDownFunc f 0 (s_len h - 1)))) (fun _ => k)) (m, h) =
        match o with Ok _ => k (write_at m h 0 w, h) | Panic => (Panic, (write_at m h 0 w, h)) | NoFuel => (NoFuel, (write_at m h 0 w, h)) end).
      { intros B k. unfold bind in E. unfold bind, lift_mem, on_slice. cbn [fst snd]. pose proof (swap_len 0 (s_len h - 1) (contents m h)) as Sl. destruct (heapSwap 0 (s_len h - 1) (contents m h)) as [[u| |] w1] eqn:Es.
        - cbn [fst snd] in *. rewrite zlen_contents in Sl by auto. rewrite contents_write_at by auto. unfold heapDownFunc. rewrite E. rewrite write_at_twice by auto. now destruct o.
        - injection E as <- <-. reflexivity.
        - injection E as <- <-. reflexivity. }
      rewrite S2. clear S2 E.
      assert (Ww : wf_slice (write_at m h 0 w) h) by now apply wf_write_self.
      destruct o as [u| |].
      * unfold bind at 1, lift_o at 1. rewrite Er. unfold bind at 1, on_queue at 1, set_hdr at 1. cbn [fst snd].
        unfold bind at 1, lift_o at 1. unfold bind at 1, set_hdr at 1. cbn [fst snd].
        unfold h_load, on_queue, lift_mem, on_slice. cbn [fst snd]. pose proof (load_len (s_len h - 1) (contents (write_at m h 0 w) h)) as Ll. destruct (wload (s_len h - 1) (contents (write_at m h 0 w) h)) as [o w1]. cbn [snd] in Ll. rewrite zlen_contents in Ll by auto.
        exists (omap OVal o), (write_at (write_at m h 0 w) h 0 w1), (mkSlice (s_arr h) (s_off h + 0) (s_len h - 1 - 0) (s_cap h - 0)), x'. split; auto. split; auto. split; [apply Wr; now apply wf_write_self|]. split; auto. cbn [s_len]. lia.
      * exists Panic, (write_at m h 0 w), h, x'. split; auto. split; auto. split; auto. split; auto. lia.
      * exists NoFuel, (write_at m h 0 w), h, x'. split; auto. split; auto. split; auto. split; auto. lia.
    + assert (Es : heapSwap 0 (s_len h - 1) (contents m h) = (Panic, contents m h)).
      { unfold heapSwap, wswap, bind, wload. replace (zget (contents m h) (s_len h - 1)) with (@None T); auto. symmetry. apply zget_None. lia. }
      unfold h_swap, on_queue, lift_mem, on_slice, bind. cbn [fst snd]. rewrite Es. rewrite write_at_same by auto.
      exists Panic, m, h, x. split; auto. split; auto. split; auto. split; [apply Rr|lia].
  - unfold observe, PQ_Top, on_heap, on_queue, sload, bind, get_hdr, lift_mem, on_slice. cbn [fst snd pq_heap pq_impl]. pose proof (load_len 0 (contents m h)) as Ll. rewrite zlen_contents in Ll by auto.
    destruct (wload 0 (contents m h)) as [o w]. cbn [snd] in Ll. exists (omap OVal o), (write_at m h 0 w), h, x. split; auto. split; auto. split; [now apply wf_write_self|]. split; [apply Rr|]. change (zlen (pushed [@PTop T])) with 0. lia.
  - exists (Ok (OInt (s_len h))), m, h, x. split; auto. split; auto. split; auto. split; [apply Rr|]. change (zlen (pushed [@PLen T])) with 0. lia.
  - exists (Ok (OBool (s_len h =? 0))), m, h, x. split; auto. split; auto. split; auto. split; [apply Rr|]. change (zlen (pushed [@PIsEmpty T])) with 0. lia.
  - unfold observe, PQ_Clear, on_heap, on_queue, bind, get_hdr, lift_o, set_hdr. cbn [fst snd pq_heap pq_impl].
    assert (Er : reslice h 0 0 = Ok (mkSlice (s_arr h) (s_off h + 0) (0 - 0) (s_cap h - 0))).
    { unfold reslice. replace ((0 <=? 0) && (0 <=? 0) && (0 <=? s_cap h)) with true; auto. symmetry. rewrite !andb_true_iff, !Z.leb_le. lia. }
    rewrite Er. cbn [fst snd]. exists (Ok ONone), m, (mkSlice (s_arr h) (s_off h + 0) (0 - 0) (s_cap h - 0)), x. split; auto. split; auto.
    split; [unfold wf_slice, arr_of in *; cbn [s_arr s_off s_len s_cap]; lia|]. split; [apply Rr|]. cbn [s_len]. change (zlen (pushed [@PClear T])) with 0. lia.
Qed.
End Looking.

(** ** Less functions that do anything *)
Section Keeping.
Context {T X : Type}.
Variables (P : T -> Prop) (mayfail : Prop) (less : T -> T -> @QP T X bool).
Implicit Types (m : mem T) (x : X).

Lemma Forall_zget (l : list T) : Forall P l <-> forall i v, zget l i = Some v -> P v.
Proof.
  rewrite Forall_forall. split.
  - intros H i v G. apply H. unfold zget in G. destruct (i <? 0); [discriminate|]. eapply nth_error_In; eauto.
  - intros H v I. destruct (In_nth_error l v I) as (n & E). apply (H (Z.of_nat n)). now rewrite zget_nat.
Qed.
(** Writing elements P anywhere. *)
Lemma write_holds m h pos xs k : wf_slice m h -> 0 <= pos -> s_off h + pos + zlen xs <= zlen (arr_of m h) -> Forall P xs -> holds P m k -> holds P (write_at m h pos xs) k.
Proof.
  intros W Hp Hx Fx (Wk & Lk & Fk). pose proof W as (A1 & A2 & A3 & A4). assert (W' : wf_slice (write_at m h pos xs) k) by (apply wf_write_at; auto). split; auto. split; auto.
  rewrite Forall_zget in *. intros i v G. pose proof (zget_Some_range _ _ _ G) as Ri. rewrite zget_contents in G by (auto; lia). specialize (Fk i). rewrite zget_contents in Fk by (auto; lia).
  destruct (i <? s_len k); [|discriminate]. unfold arr_of in G at 1. destruct (Nat.eq_dec (s_arr k) (s_arr h)) as [Ea|Ea].
  - rewrite Ea, write_at_nth in G by auto. pose proof Wk as (B1 & B2 & B3 & B4). rewrite zget_zwrite in G by lia.
    destruct ((s_off h + pos <=? s_off k + i) && (s_off k + i <? s_off h + pos + zlen xs)); [eapply Fx; eauto|]. apply Fk. unfold arr_of. rewrite Ea. exact G.
  - rewrite write_at_nth_other in G by auto. apply Fk. exact G.
Qed.
Lemma extends_holds m m' k : extends m m' -> holds P m k -> holds P m' k.
Proof.
  intros (El & Ee) ((A1 & A2 & A3 & A4) & Lk & Fk). assert (Ea : arr_of m' k = arr_of m k) by (unfold arr_of; apply Ee; auto).
  unfold holds, wf_slice, contents. rewrite Ea. split; [lia|]. split; auto.
Qed.

Hypothesis C : keeps_elements P mayfail less.
(** The result of a computation that works on the slice h while pq.heap is any. *)
Definition fine {A} (m : mem T) (r : outcome A * (cell T * X)) : Prop :=
  exists o m' h' x', r = (o, ((m', h'), x')) /\ holds P m' h' /\ (forall k, holds P m k -> holds P m' k) /\
    match o with Ok _ => True | Panic => mayfail | NoFuel => False end.
Lemma load_at m h hc x i : wf_slice m h -> 0 <= i < s_len h -> exists v, zget (contents m h) i = Some v /\ h_load h i (@pair (cell T) X (m, hc) x) = (Ok v, ((m, hc), x)).
Proof.
  intros W Hi. destruct (zget_range (contents m h) i) as (v & G); [rewrite zlen_contents; auto|]. exists v. split; auto.
  unfold h_load, on_queue, lift_mem, on_slice. cbn [fst snd]. rewrite (wload_ok _ _ _ G). now rewrite write_at_same.
Qed.
Lemma swap_at m h hc x i j : wf_slice m h -> 0 <= i < s_len h -> 0 <= j < s_len h -> h_swap h i j (@pair (cell T) X (m, hc) x) = (Ok tt, ((write_at m h 0 (zswap (contents m h) i j), hc), x)).
Proof.
  intros W Hi Hj. unfold h_swap, heapSwap, on_queue, lift_mem, on_slice. cbn [fst snd]. rewrite wswap_ok; auto; rewrite zlen_contents; auto.
Qed.
Lemma swap_holds m h i j k : holds P m h -> holds P m k -> holds P (write_at m h 0 (zswap (contents m h) i j)) k.
Proof.
  intros (W & Ln & F) Hk. pose proof W as (A1 & A2 & A3 & A4). apply write_holds; auto; [lia|rewrite zlen_zswap, zlen_contents by auto; lia|].
  eapply Permutation_Forall; [symmetry; apply zswap_perm|exact F].
Qed.
Lemma elem_P m h i v : holds P m h -> zget (contents m h) i = Some v -> P v.
Proof. intros (_ & _ & F) G. rewrite Forall_zget in F. eauto. Qed.

Lemma up_fine h fuel : forall j m hc x, holds P m h -> holds P m hc -> 0 <= j < s_len h -> j < Z.of_nat fuel ->
  fine m (heapUp_self less h fuel j (@pair (cell T) X (m, hc) x)).
Proof using C.
  induction fuel as [|fu IH]; intros j m hc x Hh Hc Hj Hf; [lia|]. cbn [heapUp_self]. cbv zeta. destruct (Z.eqb_spec (Z.quot (j - 1) 2) j) as [E|E].
  { exists (Ok tt), m, hc, x. split; [reflexivity|]. auto. }
  assert (J0 : 0 < j). { destruct (Z.eq_dec j 0) as [->|]; [cbv in E|]; lia. }
  rewrite quot_parent in * by lia. assert (I : 0 <= (j - 1) / 2 < j) by (pose proof (Z.div_pos (j - 1) 2); pose proof (Z.div_le_upper_bound (j - 1) 2 (j - 1)); lia).
  set (i := (j - 1) / 2) in *. clearbody i. pose proof Hh as (W & _).
  destruct (load_at m h hc x j W Hj) as (vj & Gj & Ej). destruct (load_at m h hc x i W ltac:(lia)) as (vi & Gi & Ei).
  rewrite (bind_Ok _ _ _ _ _ Ej), (bind_Ok _ _ _ _ _ Ei).
  destruct (C m hc x vj vi (elem_P _ _ _ _ Hh Gj) (elem_P _ _ _ _ Hh Gi) Hc) as (o & m1 & h1 & x1 & El & H1 & K1 & Ho).
  unfold bind at 1. rewrite El. destruct o as [b| |]; [|exists Panic, m1, h1, x1; auto|destruct Ho].
  destruct (negb b); [exists (Ok tt), m1, h1, x1; auto|]. pose proof (K1 h Hh) as Hh1. pose proof Hh1 as (W1 & _).
  rewrite (bind_Ok _ _ _ _ _ (swap_at m1 h h1 x1 i j W1 ltac:(lia) Hj)).
  destruct (IH i (write_at m1 h 0 (zswap (contents m1 h) i j)) h1 x1) as (o & m2 & h2 & x2 & E2 & H2 & K2 & Ho2); auto using swap_holds; try lia.
  exists o, m2, h2, x2. split; auto. split; auto. split; auto. intros k Hk. apply K2, swap_holds; auto.
Qed.
Lemma down_fine h n i0 fuel : forall i m hc x, holds P m h -> holds P m hc -> 0 <= i <= n -> n <= s_len h -> n - i < Z.of_nat fuel ->
  fine m (heapDown_self less h fuel i0 n i (@pair (cell T) X (m, hc) x)).
Proof using C.
  induction fuel as [|fu IH]; intros i m hc x Hh Hc Hi Hn Hf; [lia|]. cbn [heapDown_self]. cbv zeta.
  pose proof Hh as (W & Lm & _). pose proof (wrap64_child i n ltac:(lia) ltac:(lia) ltac:(lia)) as Hw. cbv zeta in Hw.
  destruct ((wrap64 (2 * i + 1) >=? n) || (wrap64 (2 * i + 1) <? 0)); [exists (Ok (i >? i0)), m, hc, x; split; [reflexivity|]; auto|].
  destruct Hw as [-> Hj1].
  assert (Hright : fine m ((if 2 * i + 1 + 1 <? n then h2 <- h_load h (2 * i + 1 + 1);; h1 <- h_load h (2 * i + 1);; less h2 h1 else ret false) (@pair (cell T) X (m, hc) x))).
  { destruct (Z.ltb_spec (2 * i + 1 + 1) n); [|exists (Ok false), m, hc, x; split; [reflexivity|]; auto].
    destruct (load_at m h hc x (2 * i + 1 + 1) W ltac:(lia)) as (v2 & G2 & E2). destruct (load_at m h hc x (2 * i + 1) W ltac:(lia)) as (v1 & G1 & E1).
    rewrite (bind_Ok _ _ _ _ _ E2), (bind_Ok _ _ _ _ _ E1). exact (C m hc x v2 v1 (elem_P _ _ _ _ Hh G2) (elem_P _ _ _ _ Hh G1) Hc). }
  assert (Hr : forall r s', (if 2 * i + 1 + 1 <? n then h2 <- h_load h (2 * i + 1 + 1);; h1 <- h_load h (2 * i + 1);; less h2 h1 else ret false) (@pair (cell T) X (m, hc) x) = (Ok r, s') -> (if r then 2 * i + 1 + 1 else 2 * i + 1) < n).
  { intros r s'. destruct (Z.ltb_spec (2 * i + 1 + 1) n); [destruct r; lia|]. unfold ret. intros Q. injection Q as <- _. lia. }
  destruct Hright as (o & m1 & h1 & x1 & E1 & H1 & K1 & Ho). unfold bind at 1. rewrite E1. destruct o as [right| |]; [|exists Panic, m1, h1, x1; auto|destruct Ho].
  specialize (Hr right _ E1). set (j := if right then _ else _) in *. assert (Hj : i < j) by (unfold j; destruct right; lia). clearbody j. clear E1.
  pose proof (K1 h Hh) as Hh1. pose proof Hh1 as (W1 & _).
  destruct (load_at m1 h h1 x1 j W1 ltac:(lia)) as (vj & Gj & Ej). destruct (load_at m1 h h1 x1 i W1 ltac:(lia)) as (vi & Gi & Ei).
  rewrite (bind_Ok _ _ _ _ _ Ej), (bind_Ok _ _ _ _ _ Ei).
  destruct (C m1 h1 x1 vj vi (elem_P _ _ _ _ Hh1 Gj) (elem_P _ _ _ _ Hh1 Gi) H1) as (o & m2 & h2 & x2 & El & H2 & K2 & Ho2).
  unfold bind at 1. rewrite El. destruct o as [b| |]; [|exists Panic, m2, h2, x2; split; [reflexivity|]; auto 10|destruct Ho2].
  destruct (negb b); [exists (Ok (i >? i0)), m2, h2, x2; split; [reflexivity|]; auto 10|]. pose proof (K2 h Hh1) as Hh2. pose proof Hh2 as (W2 & _).
  rewrite (bind_Ok _ _ _ _ _ (swap_at m2 h h2 x2 i j W2 ltac:(lia) ltac:(lia))).
  destruct (IH j (write_at m2 h 0 (zswap (contents m2 h) i j)) h2 x2) as (o & m3 & h3 & x3 & E3 & H3 & K3 & Ho3); auto using swap_holds; try lia.
  exists o, m3, h3, x3. split; auto. split; auto. split; auto. intros k Hk. apply K3, swap_holds; auto 10.
Qed.

Variable zero : T.
Variable grow : Z -> Z -> Z.
(** When a call panics though less does not. *)
Definition bad_call (o : pq_op T) (n : Z) : Prop := match o with PPop | PTop => n = 0 | PPush _ => n = max_int | _ => False end.
Lemma step_fine o m h x : holds P m h -> Forall P (pushed [o]) ->
  exists r m' h' x', pq_step_self zero grow less o ((m, h), x) = (r, ((m', h'), x')) /\ holds P m' h' /\ (forall k, holds P m k -> holds P m' k) /\
    match r with
    | Ok v => ~ bad_call o (s_len h) /\ (forall e, v = OVal e -> P e)
    | Panic => bad_call o (s_len h) \/ mayfail
    | NoFuel => False
    end /\
    (forall v, o = PPop -> r = Ok v -> s_len h' = s_len h - 1).
Proof using C.
  intros H Fo. pose proof H as (W & Ln & F). pose proof W as (A1 & A2 & A3 & A4). destruct o as [v| | | | |]; cbn [pq_step_self bad_call].
  - unfold observe, PushHeap_self. rewrite (bind_Ok (on_queue get_hdr) _ (@pair (cell T) X (m, h) x) h (@pair (cell T) X (m, h) x) eq_refl).
    destruct (Z.leb_spec max_int (s_len h)) as [Lf|Lf]. { exists Panic, m, h, x. split; auto. split; auto. split; auto. split; [left; lia|discriminate]. }
    assert (Pv : P v) by (inversion Fo; auto).
    destruct (append_list_ok zero grow h [v] m W) as (h1 & m1 & Ea & W1 & C1 & L1 & Fr). change (zlen [v]) with 1 in *.
    assert (Ea' : on_queue (lift_mem (append_list zero grow h [v])) (@pair (cell T) X (m, h) x) = (Ok h1, @pair (cell T) X (m1, h) x)) by (unfold on_queue, lift_mem; cbn [fst snd]; now rewrite Ea).
    rewrite (bind_Ok _ _ _ _ _ Ea'). rewrite (bind_Ok (on_queue (set_hdr h1)) _ (@pair (cell T) X (m1, h) x) tt (@pair (cell T) X (m1, h1) x) eq_refl).
    assert (H1 : holds P m1 h1) by (split; auto; split; [lia|rewrite C1; apply Forall_app; auto]).
    assert (K1 : forall k, holds P m k -> holds P m1 k).
    { intros k Hk. destruct (Z.leb_spec (s_len h + 1) (s_cap h)) as [Lc|Lc].
      - destruct Fr as (_ & _ & _ & ->). apply write_holds; auto; try lia. change (zlen [v]) with 1. lia.
      - destruct Fr as (_ & _ & _ & Ex). eapply extends_holds; eauto. }
    destruct (up_fine h1 (S (S (Z.to_nat (s_len h1 - 1)))) (s_len h1 - 1) m1 h1 x H1 H1) as (o & m2 & h2 & x2 & E2 & H2 & K2 & Ho); try lia.
    rewrite E2. exists (omap (fun _ => ONone) o), m2, h2, x2. split; auto. split; auto. split; auto. split; [|discriminate].
    destruct o; cbn [omap]; auto. split; [lia|discriminate].
  - unfold observe, PopHeap_self. rewrite (bind_Ok (on_queue get_hdr) _ (@pair (cell T) X (m, h) x) h (@pair (cell T) X (m, h) x) eq_refl). cbv zeta.
    destruct (Z_lt_le_dec 0 (s_len h)) as [Lp|Lp].
    + rewrite (bind_Ok _ _ _ _ _ (swap_at m h h x 0 (s_len h - 1) W ltac:(lia) ltac:(lia))).
      assert (H1 : holds P (write_at m h 0 (zswap (contents m h) 0 (s_len h - 1))) h) by now apply swap_holds.
      destruct (down_fine h (s_len h - 1) 0 (S (Z.to_nat (s_len h - 1))) 0 _ h x H1 H1) as (o & m2 & h2 & x2 & E2 & H2 & K2 & Ho); try lia.
      assert (K : forall k, holds P m k -> holds P m2 k) by (intros k Hk; apply K2, swap_holds; auto).
      destruct o as [b| |]; [rewrite (bind_Ok _ _ _ _ _ E2)|rewrite (bind_stop _ _ _ _ E2); exists Panic, m2, h2, x2; cbn [omap]; split; auto; split; auto; split; auto; split; [auto|discriminate]|destruct Ho].
      assert (Er : reslice h 0 (s_len h - 1) = Ok (mkSlice (s_arr h) (s_off h + 0) (s_len h - 1 - 0) (s_cap h - 0))).
      { unfold reslice. replace ((0 <=? 0) && (0 <=? s_len h - 1) && (s_len h - 1 <=? s_cap h)) with true; auto. symmetry. rewrite !andb_true_iff, !Z.leb_le. lia. }
      rewrite (bind_Ok (lift_o (reslice h 0 (s_len h - 1))) _ (@pair (cell T) X (m2, h2) x2) _ (@pair (cell T) X (m2, h2) x2) (f_equal (fun r => (r, @pair (cell T) X (m2, h2) x2)) Er)).
      rewrite (bind_Ok (on_queue (set_hdr _)) _ (@pair (cell T) X (m2, h2) x2) tt (@pair (cell T) X (m2, mkSlice (s_arr h) (s_off h + 0) (s_len h - 1 - 0) (s_cap h - 0)) x2) eq_refl).
      pose proof (K h H) as Hh2. pose proof Hh2 as (W2 & _ & F2). destruct (load_at m2 h (mkSlice (s_arr h) (s_off h + 0) (s_len h - 1 - 0) (s_cap h - 0)) x2 (s_len h - 1) W2 ltac:(lia)) as (e & Ge & Ee). rewrite Ee.
      eexists _, _, _, _. split; [reflexivity|]. split; [|split; [exact K|split; [|intros u _ _; cbn [s_len]; lia]]].
      * pose proof W2 as (B1 & B2 & B3 & B4). split; [unfold wf_slice, arr_of in *; cbn [s_arr s_off s_len s_cap]; lia|]. cbn [s_len]. split; [lia|].
        rewrite Forall_zget in *. intros i u G. apply (F2 i). pose proof (zget_Some_range _ _ _ G) as Ri. unfold contents, arr_of in *. cbn [s_arr s_off s_len] in *.
        rewrite zget_zsub in G by lia. rewrite zget_zsub by lia. destruct (Z.ltb_spec i (s_off h + 0 + (s_len h - 1 - 0) - (s_off h + 0))); [|discriminate].
        destruct (Z.ltb_spec i (s_off h + s_len h - s_off h)); [|lia]. now rewrite Z.add_0_r in G.
      * cbn [omap]. split; [lia|]. intros e' Q. injection Q as <-. eapply elem_P; eauto.
    + assert (Es : heapSwap 0 (s_len h - 1) (contents m h) = (Panic, contents m h)).
      { unfold heapSwap, wswap, bind, wload. replace (zget (contents m h) (s_len h - 1)) with (@None T); auto. symmetry. apply zget_None. lia. }
      unfold h_swap, on_queue, lift_mem, on_slice, bind. cbn [fst snd]. rewrite Es. rewrite write_at_same by auto.
      exists Panic, m, h, x. split; auto. split; auto. split; auto. split; [left; lia|discriminate].
  - unfold observe, on_queue, sload, bind, get_hdr, lift_mem, on_slice, wload. cbn [fst snd]. destruct (zget (contents m h) 0) as [e|] eqn:G; rewrite write_at_same by auto; cbn [omap].
    + exists (Ok (OVal e)), m, h, x. split; auto. split; auto. split; auto. split; [|discriminate]. split; [|intros e' Q; injection Q as <-; eapply elem_P; eauto].
      pose proof (zget_Some_range _ _ _ G) as Rg. rewrite zlen_contents in Rg by auto. lia.
    + exists Panic, m, h, x. split; auto. split; auto. split; auto. split; [left|discriminate]. apply zget_None in G. rewrite zlen_contents in G by auto. lia.
  - exists (Ok (OInt (s_len h))), m, h, x. split; auto. split; auto. split; auto. split; [split; [tauto|discriminate]|discriminate].
  - exists (Ok (OBool (s_len h =? 0))), m, h, x. split; auto. split; auto. split; auto. split; [split; [tauto|discriminate]|discriminate].
  - unfold observe, on_queue, bind, get_hdr, lift_o, set_hdr. cbn [fst snd].
    assert (Er : reslice h 0 0 = Ok (mkSlice (s_arr h) (s_off h + 0) (0 - 0) (s_cap h - 0))).
    { unfold reslice. replace ((0 <=? 0) && (0 <=? 0) && (0 <=? s_cap h)) with true; auto. symmetry. rewrite !andb_true_iff, !Z.leb_le. lia. }
    rewrite Er. cbn [fst snd omap]. eexists _, _, _, _. split; [reflexivity|]. split; [|split; [auto|split; [split; [tauto|discriminate]|discriminate]]].
    split; [unfold wf_slice, arr_of in *; cbn [s_arr s_off s_len s_cap]; lia|]. cbn [s_len]. split; [unfold max_int in *; lia|].
    unfold contents. cbn [s_arr s_off s_len]. unfold zsub. replace (Z.to_nat (s_off h + 0 + (0 - 0) - (s_off h + 0))) with 0%nat by lia. constructor.
Qed.
End Keeping.

(** ** Less functions that push *)
Section Adding.
Context {T : Type}.
Notation log := (list (pq_op T * outcome (obs T))).
Implicit Types (m : mem T) (x : log).
(** pq.heap goes on from h to h': the same slice, as long or longer, or a new one. *)
Definition later m (h : slice) m' (h' : slice) : Prop :=
  (length m <= length m')%nat /\ wf_slice m' h' /\ s_len h' <= max_int /\ (forall k, wf_slice m k -> wf_slice m' k) /\
  ((s_arr h' = s_arr h /\ s_off h' = s_off h /\ s_len h <= s_len h') \/ (length m <= s_arr h')%nat).
(** The slice h a function works on is a part of pq.heap, or was left. *)
Definition under m (h hc : slice) : Prop :=
  wf_slice m h /\ wf_slice m hc /\ s_len hc <= max_int /\ ((s_arr hc = s_arr h /\ s_off hc = s_off h /\ s_len h <= s_len hc) \/ s_arr hc <> s_arr h).
Definition adds (less : T -> T -> @QP T log bool) : Prop :=
  forall m h x a b, wf_slice m h -> s_len h <= max_int -> exists r m' h' y, less a b ((m, h), x) = (Ok r, ((m', h'), x ++ y)) /\
    later m h m' h' /\ Permutation (contents m' h') (contents m h ++ came y).

Lemma later_refl m h : wf_slice m h -> s_len h <= max_int -> later m h m h.
Proof. intros W L. unfold later. split; auto. split; auto. split; auto. split; auto. left. lia. Qed.
Lemma later_trans m h m1 h1 m2 h2 : later m h m1 h1 -> later m1 h1 m2 h2 -> later m h m2 h2.
Proof.
  intros (A1 & A2 & A3 & A4 & A5) (B1 & B2 & B3 & B4 & B5). split; [lia|]. split; auto. split; auto. split; auto.
  destruct A5 as [(E1 & E2 & E3)|E], B5 as [(F1 & F2 & F3)|F]; [left; rewrite F1, F2; repeat split; auto; lia|right; lia|right; lia|right; lia].
Qed.
Lemma under_later m h hc m' hc' : under m h hc -> later m hc m' hc' -> under m' h hc'.
Proof.
  intros (A1 & A2 & A3 & A4) (B1 & B2 & B3 & B4 & B5). split; auto. split; auto. split; auto. pose proof A1 as (C1 & _).
  destruct B5 as [(E1 & E2 & E3)|E]; [rewrite E1, E2; destruct A4 as [(F1 & F2 & F3)|F]; [left; repeat split; auto; lia|right; auto]|right; lia].
Qed.
(** Reordering h reorders pq.heap or leaves it. *)
Lemma under_write m h hc w : under m h hc -> Permutation w (contents m h) ->
  under (write_at m h 0 w) h hc /\ later m hc (write_at m h 0 w) hc /\ Permutation (contents (write_at m h 0 w) hc) (contents m hc).
Proof.
  intros (W & Wc & Lc & U) Pw. pose proof W as (A1 & A2 & A3 & A4).
  assert (Lw : zlen w = s_len h). { rewrite <- (zlen_contents m h W). unfold zlen. now rewrite (Permutation_length Pw). }
  assert (Wf : forall k, wf_slice m k -> wf_slice (write_at m h 0 w) k) by (intros k Hk; apply wf_write_at; auto; lia).
  split; [unfold under; auto|]. split; [split; [rewrite write_at_length; lia|]; split; auto; split; auto; split; auto; left; repeat split; lia|].
  destruct U as [(E1 & E2 & E3)|E].
  - assert (Split : forall m', wf_slice m' h -> wf_slice m' hc -> contents m' hc = contents m' h ++ zsub (arr_of m' h) (s_off h + s_len h) (s_off h + s_len hc)).
    { intros m' Wh' Wc'. apply zlist_eq. intros i Hi. rewrite zget_app, zlen_contents, !zget_contents by auto. rewrite E2. unfold arr_of. rewrite E1.
      destruct (Z.ltb_spec i (s_len h)); [destruct (Z.ltb_spec i (s_len hc)); auto; lia|]. rewrite zget_zsub by lia.
      destruct (Z.ltb_spec i (s_len hc)), (Z.ltb_spec (i - s_len h) (s_off h + s_len hc - (s_off h + s_len h))); auto; try lia. f_equal. lia. }
    rewrite (Split (write_at m h 0 w)), (Split m) by auto. rewrite contents_write_at by auto. apply Permutation_app; auto.
    assert (E : zsub (arr_of (write_at m h 0 w) h) (s_off h + s_len h) (s_off h + s_len hc) = zsub (arr_of m h) (s_off h + s_len h) (s_off h + s_len hc)); [|now rewrite E].
    apply zlist_eq. intros i Hi. rewrite !zget_zsub by lia. unfold arr_of at 1. rewrite write_at_nth by auto. rewrite zget_zwrite by lia.
    destruct (Z.leb_spec (s_off h + 0) (s_off h + s_len h + i)), (Z.ltb_spec (s_off h + s_len h + i) (s_off h + 0 + zlen w)); cbn [andb]; auto; lia.
  - unfold contents at 1, arr_of. rewrite write_at_nth_other by auto. reflexivity.
Qed.
Lemma came_app (x y : log) : came (x ++ y) = came x ++ came y.
Proof. apply flat_map_app. Qed.

Variable less : T -> T -> @QP T log bool.
Hypothesis C : adds less.
Lemma up_adds h fuel : forall j m hc x, under m h hc -> 0 <= j < s_len h -> j < Z.of_nat fuel ->
  exists m' hc' y, heapUp_self less h fuel j (@pair (cell T) log (m, hc) x) = (Ok tt, ((m', hc'), x ++ y)) /\ later m hc m' hc' /\ Permutation (contents m' hc') (contents m hc ++ came y).
Proof using C.
  induction fuel as [|fu IH]; intros j m hc x U Hj Hf; [lia|]. cbn [heapUp_self]. cbv zeta. pose proof U as (W & Wc & Lc & _). destruct (Z.eqb_spec (Z.quot (j - 1) 2) j) as [E|E].
  { exists m, hc, []. rewrite app_nil_r. split; [reflexivity|]. split; [now apply later_refl|]. cbn. now rewrite app_nil_r. }
  assert (J0 : 0 < j). { destruct (Z.eq_dec j 0) as [->|]; [cbv in E|]; lia. }
  rewrite quot_parent in * by lia. assert (I : 0 <= (j - 1) / 2 < j) by (pose proof (Z.div_pos (j - 1) 2); pose proof (Z.div_le_upper_bound (j - 1) 2 (j - 1)); lia).
  set (i := (j - 1) / 2) in *. clearbody i.
  destruct (load_at m h hc x j W Hj) as (vj & Gj & Ej). destruct (load_at m h hc x i W ltac:(lia)) as (vi & Gi & Ei).
  rewrite (bind_Ok _ _ _ _ _ Ej), (bind_Ok _ _ _ _ _ Ei).
  destruct (C m hc x vj vi Wc Lc) as (b & m1 & h1 & y & El & L1 & P1). rewrite (bind_Ok _ _ _ _ _ El).
  destruct (negb b); [exists m1, h1, y; auto|]. pose proof (under_later _ _ _ _ _ U L1) as U1. pose proof U1 as (W1 & _).
  rewrite (bind_Ok _ _ _ _ _ (swap_at m1 h h1 (x ++ y) i j W1 ltac:(lia) Hj)).
  destruct (under_write m1 h h1 (zswap (contents m1 h) i j) U1 (zswap_perm _ _ _)) as (U2 & L2 & P2).
  destruct (IH i _ h1 (x ++ y) U2 ltac:(lia) ltac:(lia)) as (m3 & h3 & y3 & E3 & L3 & P3). exists m3, h3, (y ++ y3). rewrite app_assoc. split; auto.
  split; [eapply later_trans; [exact L1|]; eapply later_trans; eauto|]. rewrite P3, P2, P1, came_app. now rewrite app_assoc.
Qed.

Variable zero : T.
Variable grow : Z -> Z -> Z.
Lemma step_adds o m h x : wf_slice m h -> s_len h <= max_int -> adding o ->
  exists r m' h' y, pq_step_self zero grow less o ((m, h), x) = (r, ((m', h'), x ++ y)) /\ later m h m' h' /\ Permutation (contents m' h') (contents m h ++ came [(o, r)] ++ came y).
Proof using C.
  intros W Ln Ho. pose proof W as (A1 & A2 & A3 & A4). assert (Nil : contents m h ++ [] ++ came [] = contents m h) by apply app_nil_r. destruct o as [v| | | | |]; try destruct Ho; cbn [pq_step_self].
  - unfold observe, PushHeap_self. rewrite (bind_Ok (on_queue get_hdr) _ (@pair (cell T) log (m, h) x) h (@pair (cell T) log (m, h) x) eq_refl).
    destruct (Z.leb_spec max_int (s_len h)) as [Lf|Lf]. { exists Panic, m, h, []. rewrite app_nil_r. split; auto. split; [now apply later_refl|]. cbn. rewrite app_nil_r. auto. }
    destruct (append_list_ok zero grow h [v] m W) as (h1 & m1 & Ea & W1 & C1 & L1 & Fr). change (zlen [v]) with 1 in *.
    assert (Ea' : on_queue (lift_mem (append_list zero grow h [v])) (@pair (cell T) log (m, h) x) = (Ok h1, @pair (cell T) log (m1, h) x)) by (unfold on_queue, lift_mem; cbn [fst snd]; now rewrite Ea).
    rewrite (bind_Ok _ _ _ _ _ Ea'). rewrite (bind_Ok (on_queue (set_hdr h1)) _ (@pair (cell T) log (m1, h) x) tt (@pair (cell T) log (m1, h1) x) eq_refl).
    assert (La : later m h m1 h1).
    { destruct (Z.leb_spec (s_len h + 1) (s_cap h)) as [Lc|Lc].
      - destruct Fr as (F1 & F2 & F3 & ->). split; [rewrite write_at_length; lia|]. split; auto. split; [lia|]. split; [intros k Hk; apply wf_write_at; auto; try lia; change (zlen [v]) with 1; lia|]. left. rewrite F1, F2. repeat split; lia.
      - destruct Fr as (F1 & F2 & F3 & Ex). pose proof Ex as (El & Ee). split; [lia|]. split; auto. split; [lia|]. split; [|right; lia].
        intros k (B1 & B2 & B3 & B4). unfold wf_slice, arr_of in *. rewrite Ee by auto. lia. }
    assert (U : under m1 h1 h1) by (unfold under; split; auto; split; auto; split; [lia|left; lia]).
    destruct (up_adds h1 (S (S (Z.to_nat (s_len h1 - 1)))) (s_len h1 - 1) m1 h1 x U) as (m2 & h2 & y & E2 & L2 & P2); try lia.
    rewrite E2. cbn [omap]. exists (Ok ONone), m2, h2, y. split; auto. split; [eapply later_trans; eauto|]. rewrite P2, C1. cbn [came flat_map]. rewrite app_nil_r. now rewrite <- app_assoc.
  - unfold observe, on_queue, sload, bind, get_hdr, lift_mem, on_slice, wload. cbn [fst snd]. exists (match zget (contents m h) 0 with Some e => Ok (OVal e) | None => Panic end), m, h, []. rewrite app_nil_r.
    destruct (zget (contents m h) 0) as [e|] eqn:G; rewrite write_at_same by auto; cbn [omap]; (split; [auto|]; split; [now apply later_refl|]; cbn; rewrite app_nil_r; auto).
  - exists (Ok (OInt (s_len h))), m, h, []. rewrite app_nil_r. split; auto. split; [now apply later_refl|]. cbn. rewrite app_nil_r. auto.
  - exists (Ok (OBool (s_len h =? 0))), m, h, []. rewrite app_nil_r. split; auto. split; [now apply later_refl|]. cbn. rewrite app_nil_r. auto.
Qed.
Lemma run_adds ops : forall m h x, wf_slice m h -> s_len h <= max_int -> Forall adding ops ->
  exists rs m' h' y, run (pq_step_self zero grow less) ops ((m, h), x) = (rs, ((m', h'), x ++ y)) /\ later m h m' h' /\ Permutation (contents m' h') (contents m h ++ came (combine ops rs) ++ came y).
Proof using C.
  induction ops as [|o ops IH]; intros m h x W Ln F. { exists [], m, h, []. rewrite app_nil_r. split; [reflexivity|]. split; [now apply later_refl|]. cbn. now rewrite app_nil_r. }
  inversion F as [|? ? Fo Fr]; subst. destruct (step_adds o m h x W Ln Fo) as (r & m1 & h1 & y1 & E1 & L1 & P1). cbn [run]. rewrite E1.
  destruct L1 as (B1 & B2 & B3 & B4 & B5). destruct (IH m1 h1 (x ++ y1) B2 B3 Fr) as (rs & m2 & h2 & y2 & E2 & L2 & P2). rewrite E2. exists (r :: rs), m2, h2, (y1 ++ y2). rewrite app_assoc. split; auto.
  split; [eapply later_trans; [|exact L2]; unfold later; auto|]. rewrite P2, P1. cbn [combine]. change ((o, r) :: combine ops rs) with ([(o, r)] ++ combine ops rs). rewrite !came_app. rewrite <- !app_assoc. apply Permutation_app_head, Permutation_app_head.
  rewrite !app_assoc. apply Permutation_app_tail, Permutation_app_comm.
Qed.
End Adding.
Lemma nest_adds {T} (zero : T) grow plan f : (forall x a b, Forall adding (plan x a b)) -> forall n, adds (pq_nest zero grow plan f n).
Proof.
  intros Hp. induction n as [|n IH]; intros m h x a b W Ln; cbn [pq_nest].
  - exists (f a b), m, h, []. rewrite app_nil_r. split; auto. split; [now apply later_refl|]. cbn. now rewrite app_nil_r.
  - destruct (run_adds _ IH zero grow (plan x a b) m h x W Ln (Hp x a b)) as (rs & m' & h' & y & E & L & P). cbn [snd]. rewrite E.
    exists (f a b), m', h', (y ++ combine (plan x a b) rs). rewrite <- app_assoc. split; auto. split; auto. rewrite P, came_app. apply Permutation_app_head, Permutation_app_comm.
Qed.
