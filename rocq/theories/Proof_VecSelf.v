(** RemoveIf with a condition that uses the vector. *)
From Verif Require Import BaseLemmas Spec Trace Proof_Mem Proof_Peek Model_Transform Proof_Transform Proof_TransformMem Model_Vector Spec_Vector Proof_Vector Proof_VectorOps Spec_TransformFx Spec_Client Proof_Client Spec_VecClient Model_VecClient Proof_VecClient Proof_VecLoop Props_VecClient Spec_VecSelf Model_VecSelf.

Section VS.
Context {T St : Type}.
Variable zero : T.
Variable grow : Z -> Z -> Z.
Variables (m0 : mem T) (s0 : slice).
Implicit Types (m : mem T) (s t v : slice).
Notation L1 := (vec_listing zero grow).
Notation L2 := (vw_spec zero grow).
Notation RS := (Rs m0 s0).
Notation RV := (RC (list slice) RS Rp).
Notation CS1 := (cell T * list vectorIterator)%type.
Notation CS2 := (vworld T * list vpos)%type.
Notation vop := (iop (vcall T) T).
Variable cond : St -> T -> prog vop (ires (obs T) T) (bool * St).
Notation loop := (SelfRemoveIf_loop zero grow cond).
Notation failed := (cond_failed (client L1) cond).

(** The places of v at the start. *)
Definition on v g n k : Prop := forall j, Rp k (mkVIt v j) (mkVP g n j).
Lemma on_le v g n k k' : le k k' -> on v g n k -> on v g n k'.
Proof. intros Hl H j. eapply Rp_le; [exact Hl|apply H]. Qed.
Lemma on_wf v g n k m s w : on v g n k -> RS k (m, s) w -> wf_slice m v /\ s_len v = n.
Proof. intros H R. destruct (slot_ok _ _ _ _ _ _ _ _ R (H 0)) as (W & _). destruct (H 0) as (t & _ & E & _). cbn [vi_v vp_len] in *. split; [exact W|]. now rewrite E. Qed.
Lemma value_ok v g n k (c : CS1) (w : CS2) i : on v g n k -> RV k c w -> 0 <= i < n -> exists x, vec_value (T := T) v i c = (Ok x, c) /\ vw_slot (fst w) (mkVP g n i) = Some x.
Proof.
  intros H R Hi. pose proof (slot_some _ _ _ _ _ _ _ (proj1 R) (H i) ltac:(cbn; lia)) as Sl. cbn [vp_i vp_len] in Sl. destruct (Z.ltb_spec i n); [|lia]. destruct Sl as (x & Sl).
  exists x. split; [|exact Sl]. destruct c as [[m s] its]. pose proof (proj1 R) as R1. cbn [fst] in R1. destruct (slot_ok _ _ _ _ _ _ _ _ R1 (H i)) as (W & G). cbn [vi_v vi_i] in *. rewrite Sl in G.
  unfold vec_value, on_list. cbn [fst snd]. rewrite (lift_mem_ok _ m s x m); [reflexivity|]. apply sload_ok; auto.
Qed.
Lemma write_ok v g n k (c : CS1) (w : CS2) j x : on v g n k -> RV k c w -> 0 <= j < n -> exists m', on_list (lift_mem (sstore v j x)) c = (Ok tt, (m', snd (fst c), snd c)) /\ RV k (m', snd (fst c), snd c) (vw_write (fst w) (mkVP g n j) x, snd w).
Proof.
  intros H R Hj. pose proof (slot_some _ _ _ _ _ _ _ (proj1 R) (H j) ltac:(cbn; lia)) as Sl. cbn [vp_i vp_len] in Sl. destruct (Z.ltb_spec j n); [|lia]. destruct Sl as (y & Sl).
  destruct c as [[m s] its], w as [w vs]. destruct R as [R1 R2]. cbn [fst snd] in *. pose proof (store_ok grow _ _ _ _ _ _ _ _ x R1 (H j)) as G. rewrite Sl in G. destruct G as (m' & E & R'). exists m'.
  unfold on_list. cbn [fst snd]. unfold vi_write in E. cbn [vi_v vi_i] in E. rewrite (lift_mem_ok _ m s tt m' E). split; [reflexivity|]. split; auto.
Qed.
Lemma exec_ok st x k c (w : CS2) : RV k c w -> match exec (client L1) (cond st x) c with
  | (Ok _, c') => exists k' w', le k k' /\ RV k' c' w'
  | (r, c') => failed r /\ exists k' w', le k k' /\ RV k' c' w' end.
Proof.
  intros R. destruct (exec_sim L1 L2 (list slice) le le_refl le_trans RS Rp Rp_le (vec_sims zero grow m0 s0) (cond st x) k k c w (le_refl k) R) as (k' & Hl & R' & Hq).
  destruct (exec (client L1) (cond st x) c) as [[b| |] c'] eqn:E; cbn [fst snd] in *; [eauto|split; [|eauto]..]; exists st, x, c; rewrite E; exact I.
Qed.
Lemma loop_S v r i j st x (c : CS1) : vec_value v i c = (Ok x, c) -> loop v (S r) i j st c =
  match exec (client L1) (cond st x) c with
  | (Ok (true, st1), c') => loop v r (i + 1) j st1 c'
  | (Ok (false, st1), c') => match on_list (lift_mem (sstore v j x)) c' with
      | (Ok _, c'') => loop v r (i + 1) (j + 1) st1 c'' | (Panic, c'') => (Panic, c'') | (NoFuel, c'') => (NoFuel, c'') end
  | (Panic, c') => (Panic, c')
  | (NoFuel, c') => (NoFuel, c')
  end.
Proof. intros E. cbn [SelfRemoveIf_loop]. unfold bind at 1. rewrite E. unfold bind at 1. destruct (exec _ _ c) as [[[[] st1]| |] c']; reflexivity. Qed.
(** Whatever the condition does. *)
Lemma loop_any v g n : forall r i j st k c (w : CS2), on v g n k -> RV k c w -> 0 <= j <= i -> i + Z.of_nat r = n ->
  let F := loop v r i j st c in exists k' w', le k k' /\ RV k' (snd F) w' /\
    match fst F with Ok b => 0 <= fst b <= n | Panic => failed (@Panic St) | NoFuel => failed (@NoFuel St) end.
Proof.
  induction r as [|r IH]; intros i j st k c w Ho R Hj Hi; cbn zeta.
  - exists k, w. split; [apply le_refl|]. split; [exact R|]. cbn. lia.
  - destruct (value_ok v g n k c w i Ho R ltac:(lia)) as (x & Ex & _). rewrite (loop_S _ _ _ _ _ _ _ Ex). pose proof (exec_ok st x k c w R) as Q.
    destruct (exec (client L1) (cond st x) c) as [[[b st1]| |] c']; [|destruct Q as (Q & k' & w' & Hl & R'); exists k', w'; split; [exact Hl|split; [exact R'|exact Q]]..].
    destruct Q as (k' & w' & Hl & R'). pose proof (on_le _ _ _ _ _ Hl Ho) as Ho'. destruct b.
    + destruct (IH (i + 1) j st1 k' c' w' Ho' R' ltac:(lia) ltac:(lia)) as (k2 & w2 & Hl2 & Q). exists k2, w2. split; [eapply le_trans; eauto|exact Q].
    + destruct (write_ok v g n k' c' w' j x Ho' R' ltac:(lia)) as (m' & E & R2). rewrite E.
      destruct (IH (i + 1) (j + 1) st1 k' _ _ Ho' R2 ltac:(lia) ltac:(lia)) as (k2 & w2 & Hl2 & Q). exists k2, w2. split; [eapply le_trans; eauto|exact Q].
Qed.
Lemma last_part v m (l l' : list T) (c : CS1) n : fst (fst c) = m -> wf_slice m v -> contents m v = l -> 0 <= n <= s_len v -> l' = zsub l 0 n -> forall st : St,
  exists m', (on_list (set_hdr (mkSlice (s_arr v) (s_off v) n (s_cap v))) ;; n' <- on_list Vector_Len ;; t <- lift_o (reslice_from v n') ;; on_list (lift_mem (on_slice t (FillZero zero))) ;; ret st) c =
    (Ok st, (m', mkSlice (s_arr v) (s_off v) n (s_cap v), snd c)) /\ shrunk zero m m' v (mkSlice (s_arr v) (s_off v) n (s_cap v)) l'.
Proof.
  intros Em W C Hn El st. destruct c as [[m1 s] its]. cbn [fst snd] in *. subst m1.
  assert (Wr : wf_slice m (mkSlice (s_arr v) (s_off v) n (s_cap v))) by (destruct W as (W1 & W2 & W3 & W4); unfold wf_slice, arr_of in *; cbn [s_arr s_off s_len s_cap] in *; lia).
  destruct (finish_shrink zero m m v n l' W Hn Wr) as (m' & E & Sh).
  - rewrite El, <- C. pose proof (contents_reslice m v 0 n W ltac:(lia) ltac:(lia)) as Q. rewrite Z.add_0_r, !Z.sub_0_r in Q. exact Q.
  - apply same_except_refl.
  - exists m'. split; [|exact Sh]. unfold Vector_Len, reslice_from. unfold bind, on_list, set_hdr, get_hdr, ret, lift_o. cbn [fst snd s_len]. rewrite reslice_ok by (destruct W as (_ & _ & W3 & _); lia).
    rewrite (lift_mem_ok _ m _ tt m' E). reflexivity.
Qed.
Lemma RemoveIf_eq st (c : CS1) : let v := snd (fst c) in Vec_RemoveIf zero grow cond st c =
  match loop v (Z.to_nat (s_len v)) 0 0 st c with
  | (Ok (j, st'), c') =>
    match reslice v 0 j with
    | Ok r => (on_list (set_hdr r) ;; n' <- on_list Vector_Len ;; t <- lift_o (reslice_from v n') ;; on_list (lift_mem (on_slice t (FillZero zero))) ;; ret st') c'
    | Panic => (Panic, c')
    | NoFuel => (NoFuel, c')
    end
  | (Panic, c') => (Panic, c')
  | (NoFuel, c') => (NoFuel, c')
  end.
Proof.
  cbn zeta. unfold Vec_RemoveIf, SelfRemoveIf. set (s := snd (fst c)).
  assert (B : forall A B (p : M CS1 A) (f : A -> M CS1 B) c a c', p c = (Ok a, c') -> bind p f c = f a c') by (intros ? ? ? ? ? ? ? E; unfold bind; now rewrite E).
  rewrite (B _ _ (on_list get_hdr) _ c s c) by (destruct c as [[? ?] ?]; reflexivity).
  destruct (loop s (Z.to_nat (s_len s)) 0 0 st c) as [[[j st']| |] c'] eqn:E; [|unfold bind; rewrite E; reflexivity..].
  destruct (reslice s 0 j) as [r| |] eqn:Er; [|unfold bind, lift_o; rewrite E; cbn [fst snd]; rewrite Er; reflexivity..].
  rewrite (B _ _ _ _ c (r, st') c'); [reflexivity|]. unfold bind, lift_o. rewrite E. cbn [fst snd]. rewrite Er. reflexivity.
Qed.
Lemma RemoveIf_any k c (w : CS2) st : RV k c w -> let v := snd (fst c) in let F := Vec_RemoveIf zero grow cond st c in
  frame m0 s0 (fst (fst (snd F))) /\
  match fst F with
  | Ok _ => exists n m1 l, 0 <= n <= s_len v /\ snd (fst (snd F)) = mkSlice (s_arr v) (s_off v) n (s_cap v) /\ shrunk zero m1 (fst (fst (snd F))) v (snd (fst (snd F))) l
  | r => failed r
  end.
Proof.
  intros R. cbn zeta. rewrite RemoveIf_eq. destruct w as [w vs]. pose proof (proj1 R) as R1. cbn [fst] in R1. destruct (fst c) as [m s] eqn:Ec. cbn [snd].
  pose proof (hdr_Rp grow _ _ _ _ _ _ R1 : on s (length (vw_old w)) (vw_len w) k) as Ho. pose proof (Rs_len _ _ _ _ _ _ R1) as Ln. pose proof (Rs_wf _ _ _ _ _ _ R1) as (_ & _ & W3 & _).
  destruct (loop_any s _ _ (Z.to_nat (s_len s)) 0 0 st k c (w, vs) Ho R ltac:(lia) ltac:(lia)) as (k' & [w' vs'] & Hl & R' & Q).
  set (G := loop s (Z.to_nat (s_len s)) 0 0 st c) in *. clearbody G. destruct G as [[[j st']| |] c']; cbn [fst snd] in Q, R'.
  all: pose proof (proj1 R') as R1'; cbn [fst] in R1'; destruct (fst c') as [m' s'] eqn:Ec'.
  - pose proof (on_le _ _ _ _ _ Hl Ho) as Ho'. destruct (on_wf _ _ _ _ _ _ _ Ho' R1') as (Wv & _). assert (Q' : 0 <= j <= s_len s) by lia.
    rewrite reslice_ok by lia. rewrite Z.add_0_r, !Z.sub_0_r.
    destruct (last_part s m' (contents m' s) (zsub (contents m' s) 0 j) c' j ltac:(now rewrite Ec') Wv eq_refl Q' eq_refl st') as (m2 & E & Sh). rewrite E. cbn [fst snd]. split.
    + destruct Sh as (_ & _ & _ & _ & _ & _ & X). destruct (Ho' 0) as (t & Ht & Et & _). cbn [vi_v vp_gen] in *. pose proof R1' as (_ & _ & _ & _ & _ & M & Fr). cbn [fst] in Fr.
      eapply frame_touch with (t := t); [eapply Forall_forall; [exact M|]; eapply nth_error_In; eauto|exact Fr|]. rewrite Et in X. cbn [s_arr s_off s_len] in X. eapply ose_weaken; [apply ose_of_same; exact X|lia|]. destruct (Ho' 0) as (t' & Ht' & _ & B & _). cbn [vp_gen vp_len] in *. assert (t' = t) by congruence. subst t'. lia.
    + exists j, m', (zsub (contents m' s) 0 j). auto.
  - cbn [fst snd]. rewrite Ec'. split; [apply R1'|exact Q].
  - cbn [fst snd]. rewrite Ec'. split; [apply R1'|exact Q].
Qed.

(** Conditions that only add. *)
Hypothesis Ho : forall st x, only adds_only (cond st x).
Notation holds := (held m0 s0).
Lemma keeps_write g n (l : list T) (w : vworld T) j x : (g < length (storages w))%nat -> 0 <= j < n -> zlen l = n -> j < zlen (nth g (storages w) []) -> keeps g n l w -> keeps g n (zupd l j x) (vw_write w (mkVP g n j) x).
Proof.
  intros Hg Hj Hl Hr (B & A & E). split; [|split].
  - unfold before, vw_write in *. destruct (_ =? _)%nat; cbn [vw_old]; [exact B|]. rewrite upd_length. exact B.
  - unfold vw_write. destruct (_ =? _)%nat; cbn [vw_old vw_len]; [exact A|]. rewrite upd_length. exact A.
  - intros i Hi. rewrite storages_write by exact Hg. cbn [vp_gen vp_i].
    assert (En : forall (ls : list (list T)) y, (g < length ls)%nat -> nth g (upd g y ls) [] = y) by (intros ls y Q; apply nth_error_nth, nth_error_upd_eq; exact Q).
    rewrite En by exact Hg. destruct (Z.eq_dec i j) as [->|N].
    + rewrite !zget_zupd_eq by lia. reflexivity.
    + rewrite !zget_zupd_ne by auto. apply E. exact Hi.
Qed.
Lemma held_contents g v l c : holds g v (zlen l) l c -> wf_slice (fst (fst c)) v /\ s_len v = zlen l /\ contents (fst (fst c)) v = l.
Proof.
  intros (k & [w vs] & R & Hv & K). pose proof (proj1 R) as R1. cbn [fst] in R1. destruct (fst c) as [m s]. cbn [fst]. destruct (on_wf v g _ k m s w Hv R1) as (W & Ln). split; [exact W|]. split; [exact Ln|].
  pose proof (zlen_contents m v W) as Zc. apply zlist_eq. intros i Hi. destruct (slot_ok _ _ _ _ _ _ _ _ R1 (Hv i)) as (_ & G). cbn [vi_v vi_i] in G. rewrite G. unfold vw_slot. cbn [vp_i vp_len vp_gen].
  destruct (Z.leb_spec 0 i), (Z.ltb_spec i (zlen l)); cbn [andb]; try (symmetry; apply zget_None; lia). apply K. lia.
Qed.
Lemma cur_get (kept xs : list T) i : zlen kept <= i -> zget (kept ++ skipn (length kept) xs) i = zget xs i.
Proof.
  intros Hi. pose proof (zlen_nonneg kept). unfold zget. destruct (Z.ltb_spec i 0); [lia|]. unfold zlen in *. rewrite nth_error_app2 by lia. rewrite nth_error_skipn. f_equal. lia.
Qed.
Lemma cur_next (kept xs : list T) x : (length kept < length xs)%nat -> zupd (kept ++ skipn (length kept) xs) (zlen kept) x = (kept ++ [x]) ++ skipn (length (kept ++ [x])) xs.
Proof.
  intros Hl. assert (E : exists y, skipn (length kept) xs = y :: skipn (S (length kept)) xs).
  { revert xs Hl. induction kept as [|a kept IH]; intros [|y xs] Hl; cbn in Hl; try lia; [exists y; reflexivity|]. cbn [length skipn]. destruct (IH xs ltac:(lia)) as (z & E). exists z. rewrite E. reflexivity. }
  destruct E as (y & E). rewrite E, app_length, Nat.add_1_r, <- app_assoc. cbn [app]. apply zupd_mid.
Qed.
Lemma held_write g v (l : list T) c j x : holds g v (zlen l) l c -> 0 <= j < zlen l -> exists m', on_list (lift_mem (sstore v j x)) c = (Ok tt, (m', snd (fst c), snd c)) /\ holds g v (zlen l) (zupd l j x) (m', snd (fst c), snd c).
Proof.
  intros (k & w & R & Hv & K) Hj. destruct (write_ok v g _ k c w j x Hv R Hj) as (m' & E & R'). exists m'. split; [exact E|]. exists k, (vw_write (fst w) (mkVP g (zlen l) j) x, snd w). split; [exact R'|]. split; [exact Hv|]. cbn [fst].
  destruct (Hv j) as (t & Ht & _ & B & _). cbn [vp_gen vp_len] in *. pose proof (proj1 R) as (_ & _ & _ & F & _). destruct (F2_nth _ _ _ F _ _ Ht) as (ls & El & (Wt & Lt & Ct)).
  apply keeps_write; auto; [apply nth_error_Some; congruence|]. rewrite (nth_error_nth _ _ [] El), <- Ct, zlen_contents by auto. lia.
Qed.
Lemma held_exec g v n l st x c : holds g v n l c -> holds g v n l (snd (exec (client L1) (cond st x) c)).
Proof. intros H. apply (exec_inv (client L1) adds_only (holds g v n l) (cond st x)); [apply Ho|intros; now apply held_step|exact H]. Qed.
Lemma held_value g v (l : list T) c i x : holds g v (zlen l) l c -> zget l i = Some x -> vec_value v i c = (Ok x, c).
Proof.
  intros H G. pose proof (zget_Some_range _ _ _ G) as Hi. destruct (held_contents _ _ _ _ H) as (W & _ & C). destruct c as [[m s] its]. cbn [fst] in *. unfold vec_value, on_list. cbn [fst snd]. rewrite (lift_mem_ok _ m s x m); [reflexivity|]. apply sload_ok; auto. now rewrite C.
Qed.
Notation places v := (fun c : CS1 => contents (fst (fst c)) v).
Lemma loop_held g v xs : forall r pre kept st c, xs = pre ++ r -> (length kept <= length pre)%nat -> holds g v (zlen xs) (kept ++ skipn (length kept) xs) c ->
  match loop v (length r) (zlen pre) (zlen kept) st c with
  | (Ok (j, st'), c') => exists bs, asked (client L1) cond (places v) xs kept r st bs st' /\ let K := kept ++ answered false r bs in j = zlen K /\ (length K <= length xs)%nat /\ holds g v (zlen xs) (K ++ skipn (length K) xs) c'
  | (Panic, _) => failed (@Panic St)
  | (NoFuel, _) => failed (@NoFuel St)
  end.
Proof.
  induction r as [|x r IH]; intros pre kept st c Ex Hk Hh.
  - cbn [length SelfRemoveIf_loop]. cbn [ret]. exists []. cbn [asked answered]. rewrite app_nil_r. split; [reflexivity|]. split; [reflexivity|]. split; [|exact Hh]. subst xs. rewrite app_nil_r. exact Hk.
  - cbn [length]. assert (Lx : (length kept < length xs)%nat) by (subst xs; rewrite app_length; cbn [length]; lia).
    assert (Lc : zlen xs = zlen (kept ++ skipn (length kept) xs)) by (unfold zlen; rewrite app_length, skipn_length; lia).
    assert (Gx : zget (kept ++ skipn (length kept) xs) (zlen pre) = Some x) by (rewrite cur_get by (unfold zlen; lia); subst xs; apply zget_mid).
    rewrite Lc in Hh. rewrite (loop_S _ _ _ _ _ x _ (held_value _ _ _ _ _ _ Hh Gx)). pose proof (held_exec _ _ _ _ st x _ Hh) as Hh'. destruct (held_contents _ _ _ _ Hh) as (_ & _ & C).
    destruct (exec (client L1) (cond st x) c) as [[[b st1]| |] c'] eqn:E; cbn [snd] in Hh'; [|exists st, x, c; rewrite E; exact I..].
    assert (Hp : zlen pre + 1 = zlen (pre ++ [x])) by (rewrite zlen_app; reflexivity). assert (Exs : xs = (pre ++ [x]) ++ r) by (rewrite <- app_assoc; exact Ex).
    destruct b.
    + rewrite <- Lc in Hh'. rewrite Hp. specialize (IH (pre ++ [x]) kept st1 c' Exs ltac:(rewrite app_length; lia) Hh'). destruct (loop _ _ _ _ _ _) as [[[j st']| |] c2]; auto.
      destruct IH as (bs & A & Q). exists (true :: bs). split; [|exact Q]. cbn [asked]. exists c, c', st1. auto.
    + destruct (held_write g v _ c' (zlen kept) x Hh' ltac:(unfold zlen in *; lia)) as (m' & Ew & Hh2). rewrite Ew. rewrite cur_next, <- Lc in Hh2 by exact Lx.
      rewrite Hp. replace (zlen kept + 1) with (zlen (kept ++ [x])) by (rewrite zlen_app; reflexivity).
      specialize (IH (pre ++ [x]) (kept ++ [x]) st1 _ Exs ltac:(rewrite !app_length; lia) Hh2). destruct (loop _ _ _ _ _ _) as [[[j st']| |] c2]; auto.
      destruct IH as (bs & A & Q). exists (false :: bs). cbn [asked answered Bool.eqb]. split; [exists c, c', st1; auto|]. rewrite <- app_assoc in Q. exact Q.
Qed.
Lemma RemoveIf_adds k c (w : CS2) st : RV k c w -> let v := snd (fst c) in let xs := c_contents (fst c) in let F := Vec_RemoveIf zero grow cond st c in
  match fst F with
  | Ok st' => exists bs, asked (client L1) cond (places v) xs [] xs st bs st' /\ c_contents (fst (snd F)) = answered false xs bs
  | r => failed r
  end.
Proof.
  intros R. cbn zeta. destruct w as [w vs]. pose proof (proj1 R) as R1. cbn [fst] in R1. rewrite RemoveIf_eq. unfold c_contents at 1 2 4. set (s := snd (fst c)) in *. set (m := fst (fst c)) in *. set (xs := contents m s).
  assert (R1' : RS k (m, s) w) by (unfold m, s; rewrite <- surjective_pairing; exact R1).
  pose proof (Rs_wf _ _ _ _ _ _ R1') as W. pose proof (zlen_contents m s W) as Zl. fold xs in Zl.
  replace (Z.to_nat (s_len s)) with (length xs) by (rewrite <- Zl; unfold zlen; lia).
  assert (Hh : holds (length (vw_old w)) s (zlen xs) ([] ++ skipn 0 xs) c).
  { exists k, (w, vs). split; [exact R|]. cbn [fst app skipn]. rewrite Zl. split.
    - rewrite (Rs_len _ _ _ _ _ _ R1'). exact (hdr_Rp grow _ _ _ _ _ _ R1').
    - split; [unfold before; lia|]. split; [rewrite (Rs_len _ _ _ _ _ _ R1'); lia|]. intros j Hj. rewrite nth_now. unfold xs. rewrite <- (Rs_elems _ _ _ _ _ _ R1'). symmetry. apply (zget_elems grow); [exact (Rs_wok _ _ _ _ _ R1')|]. rewrite <- (Rs_len _ _ _ _ _ _ R1'). exact Hj. }
  pose proof (loop_held _ s xs xs [] [] st c eq_refl (Nat.le_refl _) Hh) as Q. change (zlen (@nil T)) with 0 in Q. destruct (loop s (length xs) 0 0 st c) as [[[j st']| |] c']; cbn [fst snd]; [|exact Q..].
  destruct Q as (bs & A & Ej & Lk & Hk). cbn [app] in *. set (K := answered false xs bs) in *. 
  assert (Lc : zlen xs = zlen (K ++ skipn (length K) xs)) by (unfold zlen; rewrite app_length, skipn_length; lia). rewrite Lc in Hk. destruct (held_contents _ _ _ _ Hk) as (Wv & Ls & C).
  assert (Hj : 0 <= j <= s_len s) by (subst j; unfold zlen in *; lia). pose proof W as (_ & _ & W3 & _).
  rewrite reslice_ok by lia. rewrite Z.add_0_r, !Z.sub_0_r.
  destruct (last_part s _ _ K c' j eq_refl Wv C Hj ltac:(subst j; symmetry; apply zsub_front) st') as (m2 & E & Sh). rewrite E. cbn [fst snd]. exists bs. split; [exact A|]. apply Sh.
Qed.
End VS.
