(** Proofs for C101. *)
From Verif Require Import BaseLemmas Spec Trace Proof_Mem Model_Heap Proof_Heap Proof_HeapOps Proof_HeapTotal
  Model_PriorityQueue Spec_Containers Proof_StackPQ Spec_PQOn Proof_PQOn Props_Reach Spec_PQCopy Model_PQCopy.
Local Arguments zlen : simpl never.

Section Slot.
Context {T : Type}.
(** The first slot of the storage of a slice. *)
Definition slot (m : mem T) (s : slice) : option T := zget (cap_contents m s) 0.
Lemma slot_eq m s s' : s_arr s = s_arr s' -> s_off s = s_off s' -> s_cap s = s_cap s' -> slot m s = slot m s'.
Proof. unfold slot, cap_contents, arr_of. intros -> -> ->. reflexivity. Qed.
Lemma slot_zget m s : wf_slice m s -> slot m s = if 0 <? s_cap s then zget (arr_of m s) (s_off s) else None.
Proof.
  intros (W1 & W2 & W3 & W4). unfold slot. change (cap_contents m s) with (contents m (mkSlice (s_arr s) (s_off s) (s_cap s) (s_cap s))).
  assert (W : wf_slice m (mkSlice (s_arr s) (s_off s) (s_cap s) (s_cap s))) by (unfold wf_slice, arr_of in *; cbn; lia).
  rewrite (zget_contents m _ 0 W) by lia. cbn [s_len s_off]. rewrite Z.add_0_r. reflexivity.
Qed.
Lemma slot_contents m s : wf_slice m s -> 0 < s_len s -> zget (contents m s) 0 = slot m s.
Proof.
  intros W L. rewrite slot_zget by auto. rewrite zget_contents by (auto; lia). rewrite Z.add_0_r.
  destruct W as (W1 & W2 & W3 & W4). destruct (Z.ltb_spec 0 (s_len s)); [|lia]. destruct (Z.ltb_spec 0 (s_cap s)); [|lia]. reflexivity.
Qed.
Lemma slot_some m s : wf_slice m s -> 0 < s_cap s -> exists x, slot m s = Some x.
Proof.
  intros W C. rewrite slot_zget by auto. destruct (Z.ltb_spec 0 (s_cap s)); [|lia]. destruct W as (W1 & W2 & W3 & W4). apply zget_range. lia.
Qed.

Variable less : T -> T -> bool.
Hypothesis SW : strict_weak less.
Variables (zero : T) (grow : Z -> Z -> Z).

Lemma queue_step bag m h im o : pq_rel less bag (mkPQ (m, h) im) -> zlen bag <= max_int ->
  exists r m' h' bag', pq_step zero grow o (mkPQ (m, h) im) = (r, mkPQ (m', h') im) /\
  queue_call less bag (slot m h) o r bag' (slot m' h') /\ pq_rel less bag' (mkPQ (m', h') im) /\
  ((s_arr h' = s_arr h /\ s_off h' = s_off h /\ s_cap h' = s_cap h /\ same_except m m' (s_arr h) (s_off h) (s_off h + s_cap h)) \/
   (exists v, o = PPush v) /\ s_arr h' = length m /\ 0 < s_cap h' /\ extends m m').
Proof.
  intros HR Hm. destruct (pq_step_ok less SW zero grow bag _ o HR Hm) as (bag' & Hs & HR').
  destruct (step_place less SW zero grow bag _ o HR Hm) as [Hl St]. cbv zeta in Hl, St. cbn [pq_heap fst snd] in Hl, St.
  assert (Him : pq_impl (snd (pq_step zero grow o (mkPQ (m, h) im))) = im).
  { assert (OB : forall A (f : A -> obs T) (p : M (PriorityQueue T) A) q, snd (observe f p q) = snd (p q)) by (intros A f p q; unfold observe; destruct (p q); reflexivity).
    assert (OH : forall A (p : M (cell T) A) (q : PriorityQueue T), pq_impl (snd (on_heap p q)) = pq_impl q) by (intros A p q; unfold on_heap; destruct (p (pq_heap q)); reflexivity).
    unfold pq_step. destruct o; rewrite OB; [unfold PQ_Push; cbn [pq_impl]; destruct im; apply OH|unfold PQ_Pop; cbn [pq_impl]; destruct im; apply OH|apply OH..]. }
  destruct (pq_step zero grow o (mkPQ (m, h) im)) as [r [[m' h'] im']] eqn:E. cbn [fst snd pq_heap pq_impl] in *. subst im'.
  exists r, m', h', bag'. split; [reflexivity|].
  pose proof HR as (Hwf & Hh & Hp & Hi). pose proof HR' as (Hwf' & Hh' & Hp' & _). cbn [pq_heap fst snd] in *.
  pose proof (zlen_contents m h Hwf) as Zl. pose proof (zlen_contents m' h' Hwf') as Zl'. pose proof (perm_zlen _ _ Hp) as Pl. pose proof (perm_zlen _ _ Hp') as Pl'.
  assert (Ne : forall (b : list T), b <> [] -> 0 < zlen b) by (intros [|y b] K; [contradiction|rewrite zlen_cons; pose proof (zlen_nonneg b); lia]).
  assert (Top : bag' <> [] -> exists x, slot m' h' = Some x /\ is_min less x bag').
  { intros Hb. apply Ne in Hb. rewrite <- slot_contents by (auto; lia). destruct (zget_range (contents m' h') 0) as [x Hx]; [lia|].
    exists x. split; [exact Hx|]. split; [rewrite <- Hp'; apply in_zget; exists 0; split; [lia|exact Hx]|].
    intros y Hy. apply (heap_root_min less SW (contents m' h')); auto. now rewrite Hp'. }
  split; [|split; [exact HR'|]].
  2:{ pose proof Hwf' as (V1 & V2 & V3 & V4). pose proof Hwf as (U1 & U2 & U3 & U4). destruct (Z.leb_spec (s_len h') (s_cap h)); [left; auto|right]. destruct St as [S1 S2]. split; [|split; [exact S1|split; [lia|exact S2]]].
      destruct o; cbn [size_after] in Hl; eauto; lia. }
  split; [exact Hs|].
  assert (Keep : m' = m -> s_arr h' = s_arr h -> s_off h' = s_off h -> s_cap h' = s_cap h -> slot m' h' = slot m h) by (intros ->; apply slot_eq).
  assert (Place : forall hh, mkPQ (m, hh) im = mkPQ (m', h') im -> m' = m /\ h' = hh) by (intros hh K; injection K as -> ->; auto).
  destruct o.
  - split; [exact I|]. split; [exact I|]. split; [|exact Top]. intros ->. destruct Hs as [_ Hs]. apply Permutation_nil in Hs. discriminate.
  - (* Pop *)
    destruct (Z.eq_dec (s_len h) 0) as [E0|E0].
    + pose proof (PopHeapFunc_panic less m h Hwf E0) as Hr.
      assert (Hr2 : PopMinHeap less (m, h) = (Panic, (m, h))) by (rewrite PopMinHeap_eq; auto).
      assert (m' = m /\ h' = h) as [-> ->].
      { unfold pq_step, observe, PQ_Pop, on_heap in E. cbn [pq_heap pq_impl] in Hi, E. destruct Hi as [-> | ->]; rewrite ?Hr, ?Hr2 in E; cbn in E; injection E as _ -> ->; auto. }
      split; [intros Hb; apply Ne in Hb; lia|]. split; [exact I|]. split; [reflexivity|exact Top].
    + assert (Hl2 : 0 < s_len h <= max_int) by (pose proof Hwf as (_ & _ & U3 & _); lia).
      destruct (C97_heap_keeps T less SW m h Hwf Hh Hl2) as (_ & (x & m1 & h1 & Hr & Hk) & _).
      assert (Hr2 : PopMinHeap less (m, h) = (Ok x, (m1, h1))) by (rewrite PopMinHeap_eq; auto).
      assert (r = Ok (OVal x) /\ m' = m1 /\ h' = h1) as (-> & -> & ->).
      { unfold pq_step, observe, PQ_Pop, on_heap in E. cbn [pq_heap pq_impl] in Hi, E. destruct Hi as [-> | ->]; rewrite ?Hr, ?Hr2 in E; cbn in E; injection E as -> -> ->; auto. }
      destruct (PopHeapFunc_ok less SW m h Hwf Hh Hl2) as (x2 & m2 & h2 & Hr3 & Hx & _ & _ & _ & Eh & Hf). rewrite Hr in Hr3. injection Hr3 as <- <- <-.
      rewrite slot_contents in Hx by (auto; lia).
      split; [intros _; exists x; auto|]. split; [exact I|]. split; [|exact Top].
      intros ->. change (zlen (@nil T)) with 0 in Pl'.
      assert (W1 : wf_slice m1 h) by (rewrite Eh in Hwf'; destruct Hwf' as (V1 & V2 & V3 & V4); destruct Hwf as (U1 & U2 & U3 & U4); unfold wf_slice, arr_of in *; cbn in *; lia).
      rewrite Hx, (slot_eq m1 h1 h) by (rewrite Eh; reflexivity). rewrite <- slot_contents by (auto; lia).
      rewrite Hk. rewrite (contents_empty m1 h1) by (auto; lia). reflexivity.
  - (* Top *)
    assert (m' = m /\ h' = h) as [-> ->].
    { unfold pq_step, observe, PQ_Top, on_heap in E. cbn [pq_heap pq_impl] in E. rewrite bind_get_hdr in E.
      destruct (zget (contents m h) 0) as [x|] eqn:G.
      - rewrite (lift_mem_ok _ m h _ _ (sload_ok m h _ _ Hwf G)) in E. cbn in E. injection E as _ -> ->. auto.
      - rewrite (lift_mem_panic _ m h m (sload_panic m h _ Hwf G)) in E. cbn in E. injection E as _ -> ->. auto. }
    split; [|split; [reflexivity|split; [reflexivity|exact Top]]].
    intros Hb. apply Ne in Hb. assert (L : 0 < s_len h) by lia. destruct (zget_range (contents m h) 0) as [x Hx]; [lia|].
    unfold pq_step, observe, PQ_Top, on_heap in E. cbn [pq_heap pq_impl] in E. rewrite bind_get_hdr in E.
    rewrite (lift_mem_ok _ m h _ _ (sload_ok m h _ _ Hwf Hx)) in E. cbn in E. injection E as <-. exists x. rewrite <- slot_contents; auto.
  - assert (m' = m /\ h' = h) as [-> ->] by (apply Place; injection E as _ -> ->; reflexivity).
    split; [exact I|split; [reflexivity|split; [reflexivity|exact Top]]].
  - assert (m' = m /\ h' = h) as [-> ->] by (apply Place; injection E as _ -> ->; reflexivity).
    split; [exact I|split; [reflexivity|split; [reflexivity|exact Top]]].
  - assert (m' = m /\ h' = mkSlice (s_arr h) (s_off h) 0 (s_cap h)) as [-> ->].
    { unfold pq_step, observe, PQ_Clear, on_heap in E. cbn [pq_heap pq_impl] in E. rewrite bind_get_hdr in E. rewrite reslice_prefix in E by (pose proof Hwf as (_ & _ & U3 & _); lia). cbn in E. injection E as _ -> ->. auto. }
    split; [exact I|]. split; [apply Keep; reflexivity|]. split; [intros _; apply Keep; reflexivity|exact Top].
Qed.
End Slot.

Section World.
Context {T : Type}.
Variables (zero : T) (grow : Z -> Z -> Z).

Definition owns (vars : list (pvar T)) (j : nat) (s : slice) : Prop := exists im, nth_error vars j = Some (mkVar s (Some (j, im))).
(** No queue uses array [a]. *)
Definition unused (vars : list (pvar T)) (a : nat) : Prop := forall j s, owns vars j s -> 0 < s_cap s -> s_arr s <> a.

Definition vok (m : mem T) (vars : list (pvar T)) (w : list (handle T)) (i : nat) (v : pvar T) (h : handle T) : Prop :=
  match h with
  | HZero => v = zero_var
  | HQueue less bag first => strict_weak less /\ exists im, v_impl v = Some (i, im) /\ pq_rel less bag (mkPQ (m, v_heap v) im) /\ slot m (v_heap v) = first
  | HCopy q n seen => exists less bag first im hq, nth_error w q = Some (HQueue less bag first) /\ nth_error vars q = Some (mkVar hq (Some (q, im))) /\
      v_impl v = Some (q, im) /\ wf_slice m (v_heap v) /\ s_len (v_heap v) = n /\
      (0 < n -> match seen with
                | None => s_arr (v_heap v) = s_arr hq /\ s_off (v_heap v) = s_off hq /\ 0 < s_cap hq
                | Some x => slot m (v_heap v) = Some x /\ unused vars (s_arr (v_heap v))
                end)
  end.
Definition apart (vars : list (pvar T)) : Prop := forall i j s t, i <> j -> owns vars i s -> owns vars j t -> 0 < s_cap s -> 0 < s_cap t -> s_arr s <> s_arr t.
Definition wrel (w : list (handle T)) (W : world T) : Prop :=
  (0 < length (w_mem W))%nat /\ length w = length (w_vars W) /\
  (forall i v h, nth_error (w_vars W) i = Some v -> nth_error w i = Some h -> vok (w_mem W) (w_vars W) w i v h) /\
  apart (w_vars W).

Lemma nth_of {A} (l : list A) i d x : nth_error l i = Some x -> nth i l d = x.
Proof. apply nth_error_nth. Qed.
Lemma of_nth {A} (l : list A) i d x : nth i l d = x -> x <> d -> nth_error l i = Some x.
Proof.
  intros E N. destruct (nth_error l i) as [y|] eqn:G; [now rewrite (nth_of l i d y G) in E; subst|].
  apply nth_error_None in G. rewrite nth_overflow in E by auto. congruence.
Qed.
Lemma both (w : list (handle T)) (vars : list (pvar T)) i : length w = length vars ->
  (nth_error w i = None /\ nth_error vars i = None) \/ exists h v, nth_error w i = Some h /\ nth_error vars i = Some v.
Proof.
  intros L. destruct (nth_error w i) as [h|] eqn:E1, (nth_error vars i) as [v|] eqn:E2; eauto.
  - apply nth_error_None in E2. assert (i < length w)%nat by (apply nth_error_Some; congruence). lia.
  - apply nth_error_None in E1. assert (i < length vars)%nat by (apply nth_error_Some; congruence). lia.
Qed.

(** What a step of the queue with header s does to slices it does not share. *)
Definition moved (m m' : mem T) (s s' : slice) : Prop :=
  (s_arr s' = s_arr s /\ s_off s' = s_off s /\ s_cap s' = s_cap s /\ same_except m m' (s_arr s) (s_off s) (s_off s + s_cap s)) \/
  (s_arr s' = length m /\ 0 < s_cap s' /\ extends m m').
Lemma moved_wf m m' s s' t : moved m m' s s' -> wf_slice m t -> wf_slice m' t.
Proof.
  intros [(_ & _ & _ & F1 & F2 & F3 & F4)|(_ & _ & F1 & F2)] (W1 & W2 & W3 & W4); unfold wf_slice, arr_of in *.
  - split; [lia|]. split; [exact W2|]. split; [exact W3|]. destruct (Nat.eq_dec (s_arr t) (s_arr s)) as [E|N]; [rewrite E in *; rewrite <- F3; exact W4|rewrite <- F1 by auto; exact W4].
  - split; [lia|]. split; [exact W2|]. split; [exact W3|]. rewrite F2 by auto. exact W4.
Qed.
Lemma moved_keep m m' s s' t : wf_slice m s -> moved m m' s s' -> wf_slice m t ->
  s_cap t = 0 \/ s_cap s = 0 \/ s_arr t <> s_arr s \/ s_arr s' = length m -> contents m' t = contents m t /\ slot m' t = slot m t.
Proof.
  intros Ws Mv Wt Hc.
  assert (E : s_cap t = 0 \/ arr_of m' t = arr_of m t).
  { destruct Mv as [(Ea & _ & _ & F1 & F2 & F3 & F4)|(_ & _ & F1 & F2)].
    2:{ right. apply F2. apply Wt. }
    destruct Hc as [C|[C|[C|C]]]; [now left| | |].
    - right. unfold arr_of. destruct (Nat.eq_dec (s_arr t) (s_arr s)) as [->|N]; [|symmetry; auto].
      symmetry. apply zlist_eq. intros i Hi. apply F2; lia.
    - right. symmetry. apply F1. exact C.
    - destruct Ws as (W1 & _). lia. }
  pose proof Wt as (W1 & W2 & W3 & W4). pose proof (moved_wf _ _ _ _ _ Mv Wt) as Wt'. unfold slot, contents, cap_contents. destruct E as [C|E].
  - rewrite C. rewrite !zsub_nil by lia. auto.
  - rewrite E. auto.
Qed.

Lemma owns_upd vars q s im j t : nth_error vars q = Some (mkVar s (Some (q, im))) -> forall s', owns (upd q (mkVar s' (Some (q, im))) vars) j t ->
  (j = q /\ t = s') \/ (j <> q /\ owns vars j t).
Proof.
  intros E s' [im' H]. destruct (Nat.eq_dec j q) as [->|N].
  - rewrite nth_error_upd_eq in H by (apply nth_error_Some; congruence). injection H as <- _. auto.
  - rewrite nth_error_upd_ne in H by auto. right. split; [auto|]. exists im'. exact H.
Qed.
Lemma nth_upd_other {A} (l : list A) i j x y : nth_error l i = Some y -> i <> j -> nth_error (upd j x l) i = Some y.
Proof. intros H N. rewrite nth_error_upd_ne by auto. exact H. Qed.

(** A queue call, whichever variable it is made through. *)
Lemma call_queue w W q less bag first o : wrel w W -> nth_error w q = Some (HQueue less bag first) -> zlen bag <= max_int ->
  exists hq im r bag' first' W', nth_error (w_vars W) q = Some (mkVar hq (Some (q, im))) /\
  on_var zero grow q im o W = (r, W') /\ queue_call less bag first o r bag' first' /\
  (wrel (upd q (HQueue less bag' first') w) W' \/ (exists v, o = PPush v) /\ wrel (upd q (HQueue less bag' first') (map (leave q first) w)) W').
Proof.
  intros (Hm & Hl & Hv & Ha) Hq Hmax. destruct W as [m vars]. cbn [w_mem w_vars] in *.
  destruct (both w vars q Hl) as [[K _]|(h & v & K & Ev)]; [congruence|]. assert (h = HQueue less bag first) by congruence. subst h. clear K.
  pose proof (Hv _ _ _ Ev Hq) as (SW & im & Ei & HR & Hf). destruct v as [hq i']. cbn [v_heap v_impl] in *. subst i'.
  destruct (queue_step less SW zero grow bag m hq im o HR Hmax) as (r & m' & h' & bag' & E & QC & HR' & Pl).
  pose proof HR as (Wq & _). pose proof HR' as (Wq' & _). cbn [pq_heap] in *.
  set (first' := slot m' h') in *. rewrite Hf in QC.
  exists hq, im, r, bag', first', (mkWorld m' (upd q (mkVar h' (Some (q, im))) vars)). split; [exact Ev|]. split.
  { unfold on_var, var. cbn [w_mem w_vars]. rewrite (nth_of _ _ _ _ Ev). cbn [v_heap v_impl]. rewrite E. reflexivity. }
  split; [exact QC|].
  assert (Mv : moved m m' hq h') by (destruct Pl as [P|(_ & P)]; [left|right]; exact P).
  assert (Own : forall j t, j <> q -> owns vars j t -> wf_slice m t /\ contents m' t = contents m t /\ slot m' t = slot m t).
  { intros j t N [imj Hj]. destruct (both w vars j Hl) as [[_ K]|(hj & vj & K & K2)]; [congruence|]. assert (vj = mkVar t (Some (j, imj))) by congruence. subst vj.
    pose proof (Hv _ _ _ Hj K) as V. assert (Wt : wf_slice m t).
    { destruct hj as [lj bj fj|qj nj sj|]; cbn in V.
      - destruct V as (_ & ? & _ & (V & _) & _). exact V.
      - destruct V as (? & ? & ? & ? & ? & V1 & _ & V2 & _). injection V2 as -> ->. rewrite K in V1. discriminate.
      - discriminate. }
    split; [exact Wt|]. apply (moved_keep m m' hq h' t Wq Mv Wt).
    destruct (Z.eq_dec (s_cap t) 0) as [C|C]; [now left|]. right. destruct (Z.eq_dec (s_cap hq) 0) as [C2|C2]; [now left|]. right. left.
    pose proof Wt as (_ & _ & T3 & _). pose proof Wq as (_ & _ & T4 & _). apply (Ha j q); auto; [exists imj; exact Hj|exists im; exact Ev|lia|lia]. }
  assert (Apart : apart (upd q (mkVar h' (Some (q, im))) vars)).
  { assert (One : forall j t, j <> q -> owns vars j t -> 0 < s_cap t -> 0 < s_cap h' -> s_arr t <> s_arr h').
    { intros j t N O C C'. destruct Mv as [(M1 & M2 & M3 & _)|(M1 & _)]; rewrite M1.
      - apply (Ha j q); auto; [exists im; exact Ev|lia].
      - destruct (Own j t N O) as ((U & _) & _). lia. }
    intros i j s t N Oi Oj Ci Cj. apply (owns_upd vars q hq im _ _ Ev) in Oi. apply (owns_upd vars q hq im _ _ Ev) in Oj.
    destruct Oi as [[-> ->]|[Ni Oi]], Oj as [[-> ->]|[Nj Oj]].
    - contradiction.
    - intros K. symmetry in K. revert K. apply (One j); auto.
    - apply (One i); auto.
    - apply (Ha i j); auto. }
  assert (Wf : forall s, wf_slice m s -> wf_slice m' s) by (intros s; exact (moved_wf m m' hq h' s Mv)).
  assert (Lm : (0 < length m')%nat) by (destruct Mv as [(_ & _ & _ & _ & _ & _ & M)|(_ & _ & M & _)]; lia).
  (* queues and zero values *)
  assert (Easy : forall w' i v h, (h = HZero \/ exists l b f, h = HQueue l b f) -> i <> q -> nth_error vars i = Some v -> vok m vars w i v h -> vok m' (upd q (mkVar h' (Some (q, im))) vars) w' i v h).
  { intros w' i v h Hh N Hi V. destruct Hh as [->|(l & b & f & ->)]; [exact V|]. cbn in *. destruct V as (S & im1 & V1 & V2 & V3). split; [exact S|]. exists im1. split; [exact V1|].
    assert (O : owns vars i (v_heap v)) by (exists im1; rewrite Hi; destruct v; cbn in *; congruence).
    destruct (Own _ _ N O) as (O1 & O2 & O3). rewrite O3. split; [|exact V3]. destruct V2 as (U1 & U2 & U3 & U4). cbn [pq_heap pq_impl] in *.
    split; [apply Wf; exact U1|]. rewrite O2. auto. }
  assert (New : forall w', vok m' (upd q (mkVar h' (Some (q, im))) vars) w' q (mkVar h' (Some (q, im))) (HQueue less bag' first')).
  { intros w'. split; [exact SW|]. exists im. auto. }
  assert (Lq : (q < length vars)%nat) by (apply nth_error_Some; congruence).
  assert (Lq2 : (q < length w)%nat) by (apply nth_error_Some; congruence).
  (* a frozen copy *)
  assert (Frozen : forall s x, wf_slice m s -> 0 < s_len s -> slot m s = Some x -> unused vars (s_arr s) ->
    slot m' s = Some x /\ unused (upd q (mkVar h' (Some (q, im))) vars) (s_arr s)).
  { intros s x Ws L E1 U. pose proof Ws as (_ & _ & T3 & _). split.
    - rewrite <- E1. apply (moved_keep m m' hq h' s Wq Mv Ws). right. pose proof Wq as (_ & _ & T4 & _). destruct (Z.eq_dec (s_cap hq) 0) as [C|C]; [now left|]. right. left.
      intros K. apply (U q hq); [exists im; exact Ev|lia|congruence].
    - intros j t O C. apply (owns_upd vars q hq im _ _ Ev) in O. destruct O as [[-> ->]|[N O]]; [|apply (U j); auto].
      destruct Mv as [(M1 & M2 & M3 & _)|(M1 & _)]; rewrite M1; [apply (U q); [exists im; exact Ev|lia]|]. destruct Ws as (S1 & _). lia. }
  destruct Pl as [(M1 & M2 & M3 & _)|(Po & M1 & M2 & M3)].
  - left. split; [exact Lm|]. cbn [w_mem w_vars]. split; [rewrite !upd_length; exact Hl|]. split; [|exact Apart].
    intros i v h Hi Hh. destruct (Nat.eq_dec i q) as [->|N].
    + rewrite nth_error_upd_eq in Hi by auto. rewrite nth_error_upd_eq in Hh by auto. injection Hi as <-. injection Hh as <-. apply New.
    + rewrite nth_error_upd_ne in Hi by auto. rewrite nth_error_upd_ne in Hh by auto. pose proof (Hv _ _ _ Hi Hh) as V.
      destruct h as [l b f|q1 n seen|]; [apply Easy; eauto| |apply Easy; eauto].
      destruct V as (l1 & b1 & f1 & im1 & hq1 & V1 & V2 & V3 & V4 & V5 & V6). cbn [vok].
      destruct (Nat.eq_dec q1 q) as [->|N1].
      * rewrite Ev in V2. injection V2 as <- <-. exists less, bag', first', im, h'. rewrite !nth_error_upd_eq by auto. do 3 (split; [auto|]). split; [now apply Wf|]. split; [exact V5|].
        intros Hn. specialize (V6 Hn). destruct seen as [x|]; [apply Frozen; auto; try lia; apply V6|]. rewrite M1, M2, M3. exact V6.
      * exists l1, b1, f1, im1, hq1. rewrite !nth_error_upd_ne by auto. do 3 (split; [auto|]). split; [now apply Wf|]. split; [exact V5|].
        intros Hn. specialize (V6 Hn). destruct seen as [x|]; [apply Frozen; auto; try lia; apply V6|]. exact V6.
  - right. split; [exact Po|]. split; [exact Lm|]. cbn [w_mem w_vars]. split; [rewrite !upd_length, map_length; exact Hl|]. split; [|exact Apart].
    intros i v h Hi Hh. destruct (Nat.eq_dec i q) as [->|N].
    + rewrite nth_error_upd_eq in Hi by auto. rewrite nth_error_upd_eq in Hh by (rewrite map_length; auto). injection Hi as <-. injection Hh as <-. apply New.
    + rewrite nth_error_upd_ne in Hi by auto. rewrite nth_error_upd_ne in Hh by auto. rewrite nth_error_map in Hh. destruct (nth_error w i) as [h0|] eqn:Hw; [|discriminate]. cbn in Hh. injection Hh as <-. pose proof (Hv _ _ _ Hi Hw) as V.
      destruct h0 as [l b f|q1 n seen|]; [apply Easy; cbn; eauto| |apply Easy; eauto].
      destruct V as (l1 & b1 & f1 & im1 & hq1 & V1 & V2 & V3 & V4 & V5 & V6).
      destruct (Nat.eq_dec q1 q) as [->|N1].
      * rewrite Ev in V2. injection V2 as <- <-. cbn [leave]. rewrite Nat.eqb_refl.
        assert (G : forall seen', (0 < n -> exists x, seen' = Some x /\ slot m (v_heap v) = Some x /\ unused (upd q (mkVar h' (Some (q, im))) vars) (s_arr (v_heap v)) /\ slot m' (v_heap v) = slot m (v_heap v)) ->
          vok m' (upd q (mkVar h' (Some (q, im))) vars) (upd q (HQueue less bag' first') (map (leave q first) w)) i v (HCopy q n seen')).
        { intros seen' G. exists less, bag', first', im, h'. rewrite !nth_error_upd_eq by (rewrite ?map_length; auto).
          do 3 (split; [auto|]). split; [now apply Wf|]. split; [exact V5|]. intros Hn. destruct (G Hn) as (x & -> & G1 & G2 & G3). split; [congruence|exact G2]. }
        destruct seen as [x|]; apply G; intros Hn; specialize (V6 Hn).
        -- exists x. split; [reflexivity|]. destruct V6 as [V6 V7]. split; [exact V6|]. destruct (Frozen (v_heap v) x V4 ltac:(lia) V6 V7) as [F1 F2]. split; [exact F2|congruence].
        -- destruct V6 as (A1 & A2 & A3). pose proof V4 as (_ & _ & T3 & _).
           assert (Es : slot m (v_heap v) = first).
           { rewrite <- Hf, !slot_zget by auto. destruct (Z.ltb_spec 0 (s_cap (v_heap v))); [|lia]. destruct (Z.ltb_spec 0 (s_cap hq)); [|lia]. unfold arr_of. rewrite A1, A2. reflexivity. }
           destruct (slot_some m hq Wq A3) as [x Ex]. exists x. split; [congruence|]. split; [congruence|]. split.
           ++ intros j t O C. apply (owns_upd vars q hq im _ _ Ev) in O. rewrite A1. destruct O as [[-> ->]|[Nj O]]; [rewrite M1; destruct Wq as (S1 & _); lia|].
              apply (Ha j q); auto. exists im. exact Ev.
           ++ apply (moved_keep m m' hq h' (v_heap v) Wq Mv V4). auto.
      * assert (Es : leave q first (HCopy q1 n seen) = HCopy q1 n seen) by (cbn; destruct seen; auto; destruct (Nat.eqb_spec q1 q); congruence). rewrite Es.
        exists l1, b1, f1, im1, hq1. rewrite !nth_error_upd_ne by auto. rewrite nth_error_map, V1. do 3 (split; [auto|]). split; [now apply Wf|]. split; [exact V5|].
        intros Hn. specialize (V6 Hn). destruct seen as [x|]; [apply Frozen; auto; try lia; apply V6|]. exact V6.
Qed.

Lemma vok_app m vars w i v h v2 h2 : vok m vars w i v h -> (forall j s im, v2 = mkVar s (Some (j, im)) -> j = length vars -> s_cap s = 0) -> vok m (vars ++ [v2]) (w ++ [h2]) i v h.
Proof.
  destruct h as [l b f|q n seen|]; intros V H; [exact V| |exact V].
  destruct V as (l1 & b1 & f1 & im1 & hq1 & V1 & V2 & V3 & V4 & V5 & V6). exists l1, b1, f1, im1, hq1.
  split; [rewrite nth_error_app1 by (apply nth_error_Some; congruence); exact V1|].
  split; [rewrite nth_error_app1 by (apply nth_error_Some; congruence); exact V2|]. do 3 (split; [assumption|]).
  intros Hn. specialize (V6 Hn). destruct seen as [x|]; [|exact V6]. destruct V6 as [V6 V7]. split; [exact V6|].
  intros j t [im O] C. destruct (Nat.lt_ge_cases j (length vars)) as [Hj|Hj].
  - rewrite nth_error_app1 in O by auto. apply (V7 j t); [exists im; exact O|exact C].
  - rewrite nth_error_app2 in O by auto. destruct (j - length vars)%nat as [|k] eqn:K; [|cbn in O; destruct k; discriminate]. cbn in O. injection O as ->.
    rewrite (H j t im eq_refl ltac:(lia)) in C. lia.
Qed.
Lemma wrel_add w m vars v h : wrel w (mkWorld m vars) ->
  (forall j s im, v = mkVar s (Some (j, im)) -> j = length vars -> s_cap s = 0) -> vok m vars w (length vars) v h -> wrel (w ++ [h]) (mkWorld m (vars ++ [v])).
Proof.
  intros (Hm & Hl & Hv & Ha) H V. cbn [w_mem w_vars] in *. split; [exact Hm|]. cbn [w_mem w_vars]. split; [rewrite !app_length; cbn; lia|]. split.
  - intros i v1 h1 Hi Hh. apply vok_app; [|exact H]. destruct (Nat.lt_ge_cases i (length vars)) as [K|K].
    + rewrite nth_error_app1 in Hi by auto. rewrite nth_error_app1 in Hh by lia. auto.
    + rewrite nth_error_app2 in Hi by auto. rewrite nth_error_app2 in Hh by lia. replace (i - length w)%nat with (i - length vars)%nat in Hh by lia.
      destruct (i - length vars)%nat as [|k] eqn:E; [|cbn in Hi; destruct k; discriminate]. cbn in Hi, Hh. injection Hi as <-. injection Hh as <-. replace i with (length vars) by lia. exact V.
  - assert (O : forall j s, owns (vars ++ [v]) j s -> 0 < s_cap s -> owns vars j s).
    { intros j s [im O] C. exists im. destruct (Nat.lt_ge_cases j (length vars)) as [Hj|Hj]; [rewrite nth_error_app1 in O by auto; exact O|].
      rewrite nth_error_app2 in O by auto. destruct (j - length vars)%nat as [|k] eqn:K; [|cbn in O; destruct k; discriminate]. cbn in O. injection O as ->.
      rewrite (H j s im eq_refl ltac:(lia)) in C. lia. }
    intros i j s t N Oi Oj Ci Cj. apply (Ha i j); auto.
Qed.

Lemma nil_rel less im (m : mem T) : (0 < length m)%nat -> im = pqOrdered less \/ im = pqFunc less -> pq_rel less [] (mkPQ (m, nil_slice) im).
Proof.
  intros L Hi. unfold pq_rel. cbn [pq_heap pq_impl]. split; [unfold wf_slice, nil_slice; cbn; pose proof (zlen_nonneg (arr_of m (mkSlice 0 0 0 0))); lia|].
  assert (E : contents m nil_slice = []) by (unfold contents; apply zsub_nil; cbn; lia). rewrite E.
  split; [apply empty_heap; auto|]. auto.
Qed.

Definition small (w : list (handle T)) (b : Z) : Prop := forall less bag first, In (HQueue less bag first) w -> zlen bag <= b.
Definition is_push (o : cop T) : Z := match o with CCall _ (PPush _) => 1 | _ => 0 end.

Lemma small_call w b q less bag first o r bag' first' (w2 : list (handle T)) : small w b -> In (HQueue less bag first) w -> queue_call less bag first o r bag' first' ->
  (forall l b' f, In (HQueue l b' f) w2 -> In (HQueue l b' f) w) -> small (upd q (HQueue less bag' first') w2) (b + match o with PPush _ => 1 | _ => 0 end).
Proof.
  intros S I (Hs & _) K l b' f Hin.
  assert (B' : zlen bag' <= zlen bag + match o with PPush _ => 1 | _ => 0 end).
  { destruct o; simpl in Hs.
    - destruct Hs as [_ Hs]. apply perm_zlen in Hs. rewrite zlen_cons in Hs. lia.
    - destruct Hs as [(-> & _ & ->)|(x & _ & _ & Hs)]; [lia|]. apply perm_zlen in Hs. rewrite zlen_cons in Hs. lia.
    - destruct Hs as [Hs _]. apply perm_zlen in Hs. lia.
    - destruct Hs as [_ Hs]. apply perm_zlen in Hs. lia.
    - destruct Hs as [_ Hs]. apply perm_zlen in Hs. lia.
    - destruct Hs as [_ ->]. pose proof (zlen_nonneg bag). change (zlen (@nil T)) with 0. lia. }
  apply In_nth_error in Hin as [j Hj]. destruct (Nat.eq_dec j q) as [->|N].
  - destruct (Nat.lt_ge_cases q (length w2)) as [L|L].
    + rewrite nth_error_upd_eq in Hj by auto. injection Hj as <- <- <-. pose proof (S _ _ _ I). lia.
    + rewrite upd_ge in Hj by auto. apply nth_error_In, K, S in Hj. destruct o; lia.
  - rewrite nth_error_upd_ne in Hj by auto. apply nth_error_In, K, S in Hj. destruct o; lia.
Qed.

Lemma upd_app_id {A} (l : list A) i x d : nth i l d = x -> upd i x l = l.
Proof.
  intros E. destruct (Nat.lt_ge_cases i (length l)) as [L|L]; [|now apply upd_ge]. apply upd_self. rewrite <- E. now apply nth_error_nth'.
Qed.

(** Looking at, or clearing, the header of a variable that is not a queue. *)
Lemma look_step m s im o : wf_slice m s -> match o with PPush _ | PPop => False | _ => True end ->
  pq_step zero grow o (mkPQ (m, s) im) =
  (match o with
   | PTop => match zget (contents m s) 0 with Some x => Ok (OVal x) | None => Panic end
   | PLen => Ok (OInt (s_len s)) | PIsEmpty => Ok (OBool (s_len s =? 0)) | _ => Ok ONone end,
   mkPQ (m, match o with PClear => mkSlice (s_arr s) (s_off s) 0 (s_cap s) | _ => s end) im).
Proof.
  intros W H. destruct o; try contradiction; try reflexivity.
  - unfold pq_step, observe, PQ_Top, on_heap. cbn [pq_heap pq_impl]. rewrite bind_get_hdr. destruct (zget (contents m s) 0) as [x|] eqn:G.
    + rewrite (lift_mem_ok _ m s _ _ (sload_ok m s _ _ W G)). reflexivity.
    + rewrite (lift_mem_panic _ m s m (sload_panic m s _ W G)). reflexivity.
  - unfold pq_step, observe, PQ_Clear, on_heap. cbn [pq_heap pq_impl]. rewrite bind_get_hdr. rewrite reslice_prefix by (destruct W as (_ & _ & W & _); lia). reflexivity.
Qed.

Lemma step_rel w W b o : wrel w W -> small w b -> b <= max_int -> (forall less, o = CNew less \/ o = CNewFunc less -> strict_weak less) -> 0 <= b ->
  exists w', copy_spec w o (fst (copy_step zero grow o W)) w' /\ wrel w' (snd (copy_step zero grow o W)) /\ small w' (b + is_push o).
Proof.
  intros HR Hs Hb HL Hb0. pose proof HR as (Hm & Hl & Hv & Ha). destruct W as [m vars]. cbn [w_mem w_vars] in *.
  assert (Grow : forall h, (forall l bg f, h = HQueue l bg f -> bg = []) -> small (w ++ [h]) (b + 0)).
  { intros h Hh l bg f Hin. apply in_app_or in Hin as [Hin|[E|[]]]; [apply Hs in Hin; lia|]. rewrite (Hh _ _ _ E). change (zlen (@nil T)) with 0. lia. }
  assert (Make : forall less im, strict_weak less -> im = pqOrdered less \/ im = pqFunc less -> wrel (w ++ [HQueue less [] None]) (mkWorld m (vars ++ [mkVar nil_slice (Some (length vars, im))]))).
  { intros less im S Hi. apply wrel_add; [exact HR|intros j s i2 K _; injection K as <- _ _; reflexivity|]. split; [exact S|]. exists im. split; [reflexivity|]. split; [apply nil_rel; auto|]. unfold slot, cap_contents. rewrite zsub_nil by (cbn; lia). reflexivity. }
  destruct o as [less|less| |i|i o].
  - exists (w ++ [HQueue less [] None]). split; [constructor|]. split; [apply Make; auto|]. apply Grow. intros l bg f E. injection E as _ <- _. reflexivity.
  - exists (w ++ [HQueue less [] None]). split; [constructor|]. split; [apply Make; auto|]. apply Grow. intros l bg f E. injection E as _ <- _. reflexivity.
  - exists (w ++ [HZero]). split; [constructor|]. split; [apply wrel_add; [exact HR|intros j s im E; discriminate|reflexivity]|]. apply Grow. discriminate.
  - exists (w ++ [copied i (nth i w HZero)]). split; [constructor|]. split.
    2:{ apply Grow. intros l bg f. destruct (nth i w HZero); discriminate. }
    cbn [copy_step snd w_mem w_vars]. unfold var. cbn [w_vars].
    destruct (both w vars i Hl) as [[K1 K2]|(h & v & K1 & K2)].
    + apply nth_error_None in K1. apply nth_error_None in K2. rewrite !nth_overflow by auto. apply wrel_add; [exact HR|intros j s im E; discriminate|reflexivity].
    + rewrite (nth_of _ _ _ _ K1), (nth_of _ _ _ _ K2). pose proof (Hv _ _ _ K2 K1) as V. assert (Li : (i < length vars)%nat) by (apply nth_error_Some; congruence). apply wrel_add; [exact HR| |].
      * intros j s im E Ej. subst v. destruct h as [l bg f|q n seen|]; cbn in V.
        -- destruct V as (_ & im2 & V & _). injection V as -> _. lia.
        -- destruct V as (l1 & b1 & f1 & im1 & hq1 & _ & V2 & V3 & _). injection V3 as -> ->. assert (q < length vars)%nat by (apply nth_error_Some; congruence). lia.
        -- discriminate.
      * destruct h as [l bg f|q n seen|]; cbn [copied]; [|exact V|exact V]. destruct V as (S & im & V1 & V2 & V3). destruct v as [hq i2]. cbn [v_heap v_impl] in *. subst i2.
        exists l, bg, f, im, hq. do 3 (split; [assumption || reflexivity|]). destruct V2 as (U1 & U2 & U3 & U4). cbn [pq_heap] in *. split; [exact U1|].
        assert (E : s_len hq = zlen bg) by (rewrite <- (perm_zlen _ _ U3); symmetry; apply zlen_contents; exact U1). split; [exact E|]. cbn [v_heap].
        intros Hn. destruct U1 as (_ & _ & U1 & _). split; [reflexivity|]. split; [reflexivity|lia].
  - (* calls *)
    assert (ViaQ : forall q less bag first im hq, acts_on w i o = Some q -> nth_error w q = Some (HQueue less bag first) -> nth_error vars q = Some (mkVar hq (Some (q, im))) ->
      copy_step zero grow (CCall i o) (mkWorld m vars) = on_var zero grow q im o (mkWorld m vars) ->
      exists w', copy_spec w (CCall i o) (fst (copy_step zero grow (CCall i o) (mkWorld m vars))) w' /\ wrel w' (snd (copy_step zero grow (CCall i o) (mkWorld m vars))) /\ small w' (b + is_push (CCall i o))).
    { intros q less bag first im hq A Hq Eq E. rewrite E. assert (I : In (HQueue less bag first) w) by (eapply nth_error_In; exact Hq). pose proof (Hs _ _ _ I) as Hbag.
      destruct (call_queue w (mkWorld m vars) q less bag first o HR Hq ltac:(lia)) as (hq2 & im2 & r & bag' & first' & W' & E1 & E2 & QC & [R|[[v Ev] R]]).
      - cbn [w_vars] in E1. assert (im2 = im) by congruence. subst im2. rewrite E2. exists (upd q (HQueue less bag' first') w). split; [apply (cs_queue w i o q less bag first); auto; apply nth_of; exact Hq|]. split; [exact R|].
        exact (small_call w b q less bag first o r bag' first' w Hs I QC ltac:(auto)).
      - cbn [w_vars] in E1. assert (im2 = im) by congruence. subst im2. rewrite E2. subst o. exists (upd q (HQueue less bag' first') (map (leave q first) w)). split; [apply (cs_moves w i v q less bag first); auto; apply nth_of; exact Hq|]. split; [exact R|].
        apply (small_call w b q less bag first (PPush v) r bag' first' _ Hs I QC). intros l b' f Hin. apply in_map_iff in Hin as (h0 & Eh & Hin). destruct h0 as [l0 b0 f0|q0 n0 [s0|]|]; cbn in Eh; try destruct (Nat.eqb q0 q); try discriminate. injection Eh as <- <- <-. exact Hin. }
    assert (Zero : nth i w HZero = HZero -> nth i vars zero_var = zero_var ->
      exists w', copy_spec w (CCall i o) (fst (copy_step zero grow (CCall i o) (mkWorld m vars))) w' /\ wrel w' (snd (copy_step zero grow (CCall i o) (mkWorld m vars))) /\ small w' (b + is_push (CCall i o))).
    { intros E1 E2. assert (Same : forall im, upd i (mkVar nil_slice im) vars = vars \/ im <> None) by (intros [x|]; [right; discriminate|left; apply (upd_app_id vars i _ zero_var); exact E2]).
      exists w. assert (W0 : wf_slice m nil_slice) by (unfold wf_slice, nil_slice; cbn; pose proof (zlen_nonneg (arr_of m (mkSlice 0 0 0 0))); lia).
      assert (C0 : contents m nil_slice = []) by (unfold contents; apply zsub_nil; cbn; lia).
      assert (Sm : small w (b + is_push (CCall i o))) by (intros l b' f Hin; apply Hs in Hin; cbn; destruct o; lia).
      assert (F : copy_step zero grow (CCall i o) (mkWorld m vars) = (match o with PPush _ | PPop | PTop => Panic | PLen => Ok (OInt 0) | PIsEmpty => Ok (OBool true) | PClear => Ok ONone end, mkWorld m vars)).
      { unfold copy_step, on_var, var. cbn [w_mem w_vars]. rewrite E2. cbn [zero_var v_heap v_impl].
        destruct (Same None) as [U|U]; [|congruence].
        destruct o; try reflexivity; rewrite (look_step m nil_slice) by (exact W0 || exact I); rewrite ?C0; cbn [pq_heap fst snd]; change (mkSlice (s_arr nil_slice) (s_off nil_slice) 0 (s_cap nil_slice)) with nil_slice; rewrite U; reflexivity. }
      rewrite F. cbn [fst snd]. split; [apply cs_z; auto|]. split; [exact HR|exact Sm]. }
    destruct (both w vars i Hl) as [[K1 K2]|(h & v & K1 & K2)].
    { apply nth_error_None in K1. apply nth_error_None in K2. apply Zero; apply nth_overflow; assumption. }
    pose proof (Hv _ _ _ K2 K1) as V. destruct h as [l bg f|q n seen|].
    + destruct V as (S & im & V1 & _). destruct v as [hq i2]. cbn [v_heap v_impl] in *. subst i2.
      apply (ViaQ i l bg f im hq); auto; [unfold acts_on; rewrite (nth_of _ _ _ _ K1); reflexivity|].
      unfold copy_step, var. cbn [w_vars]. rewrite (nth_of _ _ _ _ K2). cbn [v_impl]. destruct o; reflexivity.
    + pose proof V as (l1 & b1 & f1 & im1 & hq1 & V1 & V2 & V3 & V4 & V5 & V6).
      assert (PP : match o with PPush _ | PPop => True | _ => False end \/ match o with PPush _ | PPop => False | _ => True end) by (destruct o; auto).
      destruct PP as [PP|PP].
      * apply (ViaQ q l1 b1 f1 im1 hq1); auto; [unfold acts_on; rewrite (nth_of _ _ _ _ K1); destruct o; try contradiction; reflexivity|].
        unfold copy_step, var. cbn [w_vars]. rewrite (nth_of _ _ _ _ K2), V3. destruct o; try contradiction; reflexivity.
      * assert (Sm : small w (b + is_push (CCall i o))) by (intros l b' f Hin; apply Hs in Hin; cbn; destruct o; lia).
        assert (Niq : i <> q) by (intros ->; congruence).
        assert (Up : o <> PClear -> upd i (mkVar match o with PClear => mkSlice (s_arr (v_heap v)) (s_off (v_heap v)) 0 (s_cap (v_heap v)) | _ => v_heap v end (v_impl v)) vars = vars).
        { intros No. apply upd_self. rewrite K2. destruct o; try contradiction; destruct v; reflexivity. }
        assert (F : copy_step zero grow (CCall i o) (mkWorld m vars) =
          (match o with PTop => match zget (contents m (v_heap v)) 0 with Some x => Ok (OVal x) | None => Panic end | PLen => Ok (OInt (s_len (v_heap v))) | PIsEmpty => Ok (OBool (s_len (v_heap v) =? 0)) | _ => Ok ONone end,
           mkWorld m (upd i (mkVar match o with PClear => mkSlice (s_arr (v_heap v)) (s_off (v_heap v)) 0 (s_cap (v_heap v)) | _ => v_heap v end (v_impl v)) vars))).
        { unfold copy_step, on_var, var. cbn [w_mem w_vars]. rewrite (nth_of _ _ _ _ K2). destruct o; try contradiction; rewrite (look_step m (v_heap v)) by (exact V4 || exact I); reflexivity. }
        rewrite F. cbn [fst snd]. destruct o; try contradiction.
        -- exists w. rewrite Up by discriminate. split; [|split; [exact HR|exact Sm]].
           destruct (Z.eq_dec n 0) as [->|Nn].
           ++ rewrite (contents_empty m _ V4 V5). cbn. apply (cs_top0 w i q seen). apply nth_of. exact K1.
           ++ assert (Ln : 0 < n) by (destruct V4 as (_ & _ & V4 & _); lia). rewrite slot_contents by (auto; lia). specialize (V6 Ln). destruct seen as [x|].
              ** destruct V6 as [-> _]. apply (cs_top w i q n (Some x)); auto. apply nth_of. exact K1.
              ** pose proof (Hv _ _ _ V2 V1) as (_ & imq & _ & (Wq & _) & Hf). cbn [v_heap pq_heap] in *.
                 destruct V6 as (A1 & A2 & A3). pose proof V4 as (_ & _ & T3 & _).
                 assert (Es : slot m (v_heap v) = f1).
                 { rewrite <- Hf, !slot_zget by auto. destruct (Z.ltb_spec 0 (s_cap (v_heap v))); [|lia]. destruct (Z.ltb_spec 0 (s_cap hq1)); [|lia]. unfold arr_of. rewrite A1, A2. reflexivity. }
                 destruct (slot_some m _ V4 ltac:(lia)) as [x Ex]. rewrite Ex. apply (cs_top w i q n None); auto; [apply nth_of; exact K1|]. rewrite (nth_of _ _ _ _ V1). cbn. congruence.
        -- exists w. rewrite Up by discriminate. split; [|split; [exact HR|exact Sm]]. rewrite V5. apply (cs_len w i q n seen). apply nth_of. exact K1.
        -- exists w. rewrite Up by discriminate. split; [|split; [exact HR|exact Sm]]. rewrite V5. apply (cs_isempty w i q n seen). apply nth_of. exact K1.
        -- exists (upd i (HCopy q 0 seen) w). split; [apply (cs_clear w i q n seen); apply nth_of; exact K1|]. split.
           ++ assert (Li : (i < length vars)%nat) by (apply nth_error_Some; congruence).
              assert (NoOwn : forall j s, owns (upd i (mkVar (mkSlice (s_arr (v_heap v)) (s_off (v_heap v)) 0 (s_cap (v_heap v))) (v_impl v)) vars) j s -> owns vars j s).
              { intros j s [im O]. exists im. destruct (Nat.eq_dec j i) as [->|N]; [|rewrite nth_error_upd_ne in O by auto; exact O].
                rewrite nth_error_upd_eq in O by auto. injection O as _ O. rewrite V3 in O. injection O as O _. congruence. }
              split; [exact Hm|]. cbn [w_mem w_vars]. split; [rewrite !upd_length; exact Hl|]. split.
              ** intros j vj hj Hj Hh. assert (Other : forall vv hh, vok m vars w j vv hh -> vok m (upd i (mkVar (mkSlice (s_arr (v_heap v)) (s_off (v_heap v)) 0 (s_cap (v_heap v))) (v_impl v)) vars) (upd i (HCopy q 0 seen) w) j vv hh).
                 { intros vv hh VV. destruct hh as [l bg f|q2 n2 seen2|]; [exact VV| |exact VV]. destruct VV as (l2 & b2 & f2 & im2 & hq2 & U1 & U2 & U3 & U4 & U5 & U6).
                   assert (Ni2 : q2 <> i) by (intros ->; congruence). exists l2, b2, f2, im2, hq2. rewrite !nth_error_upd_ne by auto. do 5 (split; [assumption|]).
                   intros Hn. specialize (U6 Hn). destruct seen2 as [x|]; [|exact U6]. destruct U6 as [U6 U7]. split; [exact U6|]. intros k s O. apply (U7 k). apply NoOwn. exact O. }
                 destruct (Nat.eq_dec j i) as [->|N].
                 --- rewrite nth_error_upd_eq in Hj by auto. rewrite nth_error_upd_eq in Hh by lia. injection Hj as <-. injection Hh as <-. apply Other.
                     exists l1, b1, f1, im1, hq1. cbn [v_heap v_impl]. do 3 (split; [assumption|]). split; [apply wf_prefix; auto; destruct V4 as (_ & _ & V4 & _); lia|]. split; [reflexivity|]. intros K. lia.
                 --- rewrite nth_error_upd_ne in Hj by auto. rewrite nth_error_upd_ne in Hh by auto. apply Other. auto.
              ** intros j k s t N Oj Ok'. apply (Ha j k); auto.
           ++ intros l b' f Hin. apply In_nth_error in Hin as [j Hj]. destruct (Nat.eq_dec j i) as [->|N].
              ** rewrite nth_error_upd_eq in Hj by (apply nth_error_Some; congruence). discriminate.
              ** rewrite nth_error_upd_ne in Hj by auto. apply nth_error_In, Hs in Hj. cbn. lia.
    + cbn in V. subst v. apply Zero; apply nth_of; assumption.
Qed.

Lemma run_rel ops : forall w W b, wrel w W -> small w b -> 0 <= b -> b + cpushes ops <= max_int -> (forall less, In (CNew less) ops \/ In (CNewFunc less) ops -> strict_weak less) ->
  exists w', accepts copy_spec w ops (fst (run (copy_step zero grow) ops W)) w' /\ wrel w' (snd (run (copy_step zero grow) ops W)).
Proof.
  induction ops as [|o ops IH]; intros w W b HR Hs Hb Hm HL.
  - exists w. split; [constructor|exact HR].
  - assert (Hp : cpushes (o :: ops) = is_push o + cpushes ops).
    { unfold cpushes, is_push. cbn [filter]. destruct o as [| | | |i []]; rewrite ?zlen_cons; lia. }
    assert (Hn : 0 <= cpushes ops) by apply zlen_nonneg. assert (Ho : 0 <= is_push o) by (destruct o as [| | | |i []]; cbn; lia).
    destruct (step_rel w W b o HR Hs ltac:(lia)) as (w1 & S1 & R1 & Sm1); [intros less [-> | ->]; apply HL; cbn; auto|exact Hb|].
    destruct (IH w1 _ (b + is_push o) R1 Sm1 ltac:(lia) ltac:(lia)) as (w2 & A & R2); [intros less [K|K]; apply HL; cbn; auto|].
    exists w2. cbn. destruct (copy_step zero grow o W) as [r W1]. cbn [fst snd] in *. destruct (run (copy_step zero grow) ops W1) as [rs W2]. cbn [fst snd] in *.
    split; [econstructor; eauto|exact R2].
Qed.
End World.

(** The calls that act on one queue. *)
Section Calls.
Context {T : Type}.
Definition origins (w : list (handle T)) (origin : list (option nat)) : Prop :=
  length origin = length w /\ forall i, nth i origin None = match nth i w HZero with HQueue _ _ _ => Some i | HCopy q _ _ => Some q | HZero => None end.

Lemma nth_snoc {A} (l : list A) x d i : nth i (l ++ [x]) d = if Nat.eqb i (length l) then x else nth i l d.
Proof.
  destruct (Nat.eqb_spec i (length l)) as [->|N]; [rewrite app_nth2, Nat.sub_diag by lia; reflexivity|].
  destruct (Nat.lt_ge_cases i (length l)); [now rewrite app_nth1|]. rewrite !nth_overflow; rewrite ?app_length; cbn; auto; lia.
Qed.
Lemma origins_upd w origin q less bag first bag' first' : origins w origin -> nth q w HZero = HQueue less bag first -> origins (upd q (HQueue less bag' first') w) origin.
Proof.
  intros [L O] E. split; [rewrite upd_length; exact L|]. intros i. rewrite O. destruct (Nat.eq_dec i q) as [->|N].
  - rewrite E, nth_upd_eq; [reflexivity|]. destruct (Nat.lt_ge_cases q (length w)); [auto|]. rewrite nth_overflow in E by auto. discriminate.
  - rewrite nth_upd_ne by auto. reflexivity.
Qed.
Lemma nth_leave (w : list (handle T)) q x i : nth i (map (leave q x) w) HZero = leave q x (nth i w HZero).
Proof. change (@HZero T) with (leave q x (@HZero T)) at 1. apply map_nth. Qed.
Lemma origins_step w origin o r w' : origins w origin -> copy_spec w o r w' -> origins w' (next_origin origin o).
Proof.
  intros H Hs. pose proof H as [L O].
  assert (Add : forall h x, x = match h with HQueue _ _ _ => Some (length w) | HCopy q _ _ => Some q | HZero => None end -> origins (w ++ [h]) (origin ++ [x])).
  { intros h x ->. split; [rewrite !app_length; cbn; lia|]. intros i. rewrite !nth_snoc, L. destruct (Nat.eqb_spec i (length w)) as [->|N]; [reflexivity|apply O]. }
  inversion Hs; subst; cbn [next_origin].
  - apply Add. congruence.
  - apply Add. congruence.
  - apply Add. reflexivity.
  - apply Add. rewrite O. destruct (nth i w HZero); reflexivity.
  - eapply origins_upd; eauto.
  - eapply origins_upd; [|rewrite nth_leave, H1; reflexivity]. split; [rewrite map_length; exact L|]. intros j. rewrite nth_leave, O. destruct (nth j w HZero) as [| q1 n1 [s1|]|]; cbn; auto. destruct (Nat.eqb q1 q); reflexivity.
  - exact H.
  - exact H.
  - split; [rewrite upd_length; exact L|]. intros j. rewrite O. destruct (Nat.eq_dec j i) as [->|N]; [|rewrite nth_upd_ne by auto; reflexivity].
    rewrite H0, nth_upd_eq; [reflexivity|]. destruct (Nat.lt_ge_cases i (length w)); [auto|]. rewrite nth_overflow in H0 by auto. discriminate.
  - exact H.
  - exact H.
  - exact H.
Qed.

Lemma step_concerns w origin q less bag first o r w' : origins w origin -> nth q w HZero = HQueue less bag first -> copy_spec w o r w' ->
  exists bag' first', nth q w' HZero = HQueue less bag' first' /\
  (if match o with CCall i p => concerns origin q i p | _ => false end then exists i p, o = CCall i p /\ pq_spec less bag p r bag' else bag' = bag).
Proof.
  intros [L O] Eq Hs. assert (Lq : (q < length w)%nat) by (destruct (Nat.lt_ge_cases q (length w)); [auto|]; rewrite nth_overflow in Eq by auto; discriminate).
  assert (Add : forall h, nth q (w ++ [h]) HZero = HQueue less bag first) by (intros h; rewrite app_nth1 by auto; exact Eq).
  assert (Call : forall i p q0 l0 b0 f0 b1 f1 w2, acts_on w i p = Some q0 -> nth q0 w HZero = HQueue l0 b0 f0 -> queue_call l0 b0 f0 p r b1 f1 -> length w2 = length w -> (exists x, nth q w2 HZero = HQueue less bag x) ->
    exists bag' first', nth q (upd q0 (HQueue l0 b1 f1) w2) HZero = HQueue less bag' first' /\
      (if concerns origin q i p then exists i' p', CCall i p = CCall i' p' /\ pq_spec less bag p' r bag' else bag' = bag)).
  { intros i p q0 l0 b0 f0 b1 f1 w2 A E0 QC L2 [x E2].
    assert (C : concerns origin q i p = Nat.eqb q0 q).
    { unfold concerns, acts_on in *. rewrite O. destruct (nth i w HZero) as [l b f|q1 n1 s1|] eqn:Ei.
      - injection A as <-. destruct (Nat.eqb i q); destruct p; reflexivity.
      - destruct p; try discriminate; injection A as <-; now rewrite andb_true_r.
      - destruct p; discriminate. }
    rewrite C. destruct (Nat.eqb_spec q0 q) as [->|N].
    - rewrite Eq in E0. injection E0 as <- <- <-. exists b1, f1. rewrite nth_upd_eq by lia. split; [reflexivity|]. exists i, p. split; [reflexivity|apply QC].
    - exists bag, x. rewrite nth_upd_ne by auto. auto. }
  inversion Hs; subst; try (exists bag, first; split; [solve [apply Add]|reflexivity]).
  - eapply Call; eauto.
  - eapply Call; eauto; [apply map_length|]. rewrite nth_leave, Eq. cbn. eauto.
  - exists bag, first. split; [exact Eq|]. unfold concerns. rewrite O, H. destruct (Nat.eqb_spec i q) as [->|N]; [congruence|]. now rewrite andb_false_r.
  - exists bag, first. split; [exact Eq|]. unfold concerns. rewrite O, H. destruct (Nat.eqb_spec i q) as [->|N]; [congruence|]. now rewrite andb_false_r.
  - assert (N : i <> q) by congruence. exists bag, first. rewrite nth_upd_ne by auto. split; [exact Eq|]. unfold concerns. rewrite O, H. destruct (Nat.eqb_spec i q) as [->|_]; [congruence|]. now rewrite andb_false_r.
  - exists bag, first. split; [exact Eq|]. unfold concerns. rewrite O, H. destruct (Nat.eqb_spec i q) as [->|N]; [congruence|]. now rewrite andb_false_r.
  - exists bag, first. split; [exact Eq|]. unfold concerns. rewrite O, H. destruct (Nat.eqb_spec i q) as [->|N]; [congruence|]. now rewrite andb_false_r.
  - exists bag, first. split; [exact Eq|]. unfold concerns. rewrite O, H. reflexivity.
Qed.

Lemma calls_accepted q less ops : forall w origin bag first rs w', origins w origin -> nth q w HZero = HQueue less bag first -> accepts copy_spec w ops rs w' ->
  exists bag', accepts (pq_spec less) bag (map fst (calls_of q origin ops rs)) (map snd (calls_of q origin ops rs)) bag'.
Proof.
  induction ops as [|o ops IH]; intros w origin bag first rs w' H Eq Ha.
  - exists bag. constructor.
  - apply accepts_cons_inv in Ha as (r & w1 & rs' & -> & Hs & Ha). cbn [calls_of].
    destruct (step_concerns w origin q less bag first o r w1 H Eq Hs) as (b1 & f1 & E1 & C).
    destruct (IH w1 _ b1 f1 rs' w' (origins_step _ _ _ _ _ H Hs) E1 Ha) as (b2 & A2). exists b2.
    destruct o as [| | | |i p]; try (subst b1; exact A2).
    destruct (concerns origin q i p); [|subst b1; exact A2]. destruct C as (i' & p' & E & Sp). injection E as <- <-. cbn. econstructor; eauto.
Qed.

Lemma accepts_split {A Op R} (spec : A -> Op -> R -> A -> Prop) ops1 : forall ops2 a rs a2, accepts spec a (ops1 ++ ops2) rs a2 ->
  exists rs1 rs2 a1, rs = rs1 ++ rs2 /\ accepts spec a ops1 rs1 a1 /\ accepts spec a1 ops2 rs2 a2.
Proof.
  induction ops1 as [|o ops1 IH]; intros ops2 a rs a2 H.
  - exists [], rs, a. split; [reflexivity|]. split; [constructor|exact H].
  - apply accepts_cons_inv in H as (r & a1 & rs' & -> & Hs & H). destruct (IH _ _ _ _ H) as (rs1 & rs2 & a3 & -> & H1 & H2).
    exists (r :: rs1), rs2, a3. split; [reflexivity|]. split; [econstructor; eauto|exact H2].
Qed.
Lemma not_yet q ops : forall w origin rs w' ops2 rs2, origins w origin -> (forall i, nth i origin None <> Some q) -> (length w + vars_made ops <= q)%nat -> accepts copy_spec w ops rs w' ->
  exists origin', origins w' origin' /\ length w' = (length w + vars_made ops)%nat /\ calls_of q origin (ops ++ ops2) (rs ++ rs2) = calls_of q origin' ops2 rs2.
Proof.
  induction ops as [|o ops IH]; intros w origin rs w' ops2 rs2 H N Lq Ha.
  - apply accepts_nil_inv in Ha as [-> ->]. exists origin. split; [exact H|]. split; [unfold vars_made; cbn; lia|reflexivity].
  - apply accepts_cons_inv in Ha as (r & w1 & rs' & -> & Hs & Ha). cbn [app calls_of].
    pose proof (origins_step _ _ _ _ _ H Hs) as H1. pose proof H as [L _]. pose proof H1 as [L1 _].
    assert (V : vars_made (o :: ops) = ((match o with CCall _ _ => 0 | _ => 1 end) + vars_made ops)%nat) by (unfold vars_made; cbn; destruct o; cbn; reflexivity).
    assert (L2 : length (next_origin origin o) = (length origin + match o with CCall _ _ => 0 | _ => 1 end)%nat) by (destruct o; cbn [next_origin]; rewrite ?app_length; cbn; lia).
    destruct (IH w1 _ rs' w' ops2 rs2 H1) as (origin' & O' & L' & E'); [| |exact Ha|].
    + intros i. destruct o; cbn [next_origin]; rewrite ?nth_snoc; try apply N; destruct (Nat.eqb_spec i (length origin)); try apply N; try discriminate; intros E; injection E as E; lia.
    + lia.
    + exists origin'. split; [exact O'|]. split; [lia|]. rewrite E'. destruct o as [| | | |i p]; try reflexivity. unfold concerns. destruct (nth i origin None) as [q'|] eqn:Ei; [|reflexivity].
      destruct (Nat.eqb_spec q' q) as [->|_]; [elim (N i Ei)|reflexivity].
Qed.
Lemma new_queue_calls q less c (before after : list (cop T)) rs w' : c = CNew less \/ c = CNewFunc less -> q = vars_made before -> accepts copy_spec [] (before ++ c :: after) rs w' ->
  exists bag, accepts (pq_spec less) [] (map fst (calls_of q [] (before ++ c :: after) rs)) (map snd (calls_of q [] (before ++ c :: after) rs)) bag.
Proof.
  intros Hc -> Ha. apply accepts_split in Ha as (rs1 & rs2 & w1 & -> & A1 & A2).
  assert (O0 : origins ([] : list (handle T)) []) by (split; [reflexivity|intros [|i]; reflexivity]).
  destruct (not_yet (vars_made before) before [] [] rs1 w1 (c :: after) rs2 O0 ltac:(intros [|i]; discriminate) ltac:(cbn; lia) A1) as (origin & O1 & L1 & ->). cbn in L1.
  apply accepts_cons_inv in A2 as (r & w2 & rs' & -> & Hs & A2).
  assert (E2 : w2 = w1 ++ [HQueue less [] None]) by (destruct Hc as [-> | ->]; inversion Hs; reflexivity).
  pose proof (origins_step _ _ _ _ _ O1 Hs) as O2. cbn [calls_of].
  assert (Ec : forall l : list (pq_op T * outcome (obs T)), (match c with CCall i p => if concerns origin (vars_made before) i p then [(p, r)] else [] | _ => [] end) ++ l = l) by (destruct Hc as [-> | ->]; reflexivity).
  rewrite Ec. eapply (calls_accepted (vars_made before) less after w2 _ [] None rs' w' O2); [|exact A2].
  rewrite E2, <- L1, app_nth2, Nat.sub_diag by lia. reflexivity.
Qed.
End Calls.
