(** C124: the slice functions of transform.go and generate.go with callbacks that
    write memory, the function's own slices included. *)
From Verif Require Import BaseLemmas Proof_Mem Spec_LookupFx Model_TransformFx Proof_LookupFx Spec_SliceSelf Model_SliceSelf Proof_SliceSelf.

(** Transform and Generate: calls and stores take turns.  Every element is read
    when its turn comes, and the result stored right after the call.  So the slice
    ends as the results if no call writes the places before its own; what it writes
    at its own place is lost. *)
Theorem C124_Transform : forall T St (op : T -> M (world_of T St) T) a w, go_code op -> wf_slice (fst w) a ->
  takes_turns op (element a) (put_result a) (s_len a) w (TransformSelf a op w) (fun ts _ w' =>
    all_left_alone (s_arr a) (s_off a) zlen ts -> contents (fst w') a = map t_result ts).
Proof.
  intros T St op a w G Hw. pose proof Hw as (_ & Ho & HN & _).
  apply (tloop_turns op (element a) (put_result a) (sload a) (fun past _ r => sstore a (zlen past) r) (fun m => wf_slice m a) (s_len a)) with (k := fun _ => ret tt) (g := fun _ => tt); [..|reflexivity|].
  - intros m i W Hi. destruct (zget_range (contents m a) i) as [x Hx]; [rewrite zlen_contents by auto; lia|]. exists x. split; [exact Hx|now apply sload_ok].
  - intros m past x r W L. pose proof (zlen_nonneg past). exists (write_at m a (zlen past) [r]). split; [apply sstore_one; auto; lia|]. split; [apply stored_write; auto; lia|apply wf_one; auto; lia].
  - intros x w0 W. eapply shape_wf; [apply G|exact W].
  - lia.
  - exact Hw.
  - unfold TransformSelf. change 0 with (zlen (@nil (T * T))). apply Transform_tloop.
  - intros ts w' L Ht W' HL. rewrite said_results. apply holds_contents; [exact W'|unfold zlen; rewrite map_length; fold (zlen (said ts)); rewrite zlen_said; auto|].
    apply (turns_hold op (element a) (put_result a) (s_arr a) (s_off a) (map snd)) with (past := []) (w := w); auto.
    + intros past x r. left. exists r. unfold put_result. split; [unfold zlen; now rewrite map_length|now rewrite map_app].
    + intros k Hk. change (zlen (map snd (@nil (T * T)))) with 0 in Hk. lia.
    + intros l t r E. unfold zlen at 1. rewrite map_length. apply (HL _ _ _ E).
Qed.
Print Assumptions C124_Transform.
Theorem C124_Generate : forall T St (gen : M (world_of T St) T) a w, go_code (fun _ : unit => gen) -> wf_slice (fst w) a ->
  takes_turns (fun _ : unit => gen) (fun _ _ => Some tt) (put_result a) (s_len a) w (GenerateSelf a gen w) (fun ts _ w' =>
    all_left_alone (s_arr a) (s_off a) zlen ts -> contents (fst w') a = map t_result ts).
Proof.
  intros T St gen a w G Hw. pose proof Hw as (_ & Ho & HN & _).
  apply (tloop_turns (fun _ : unit => gen) (fun _ _ => Some tt) (put_result a) (fun _ => ret tt) (fun past _ r => sstore a (zlen past) r) (fun m => wf_slice m a) (s_len a)) with (k := fun _ => ret tt) (g := fun _ => tt); [..|reflexivity|].
  - intros m i W Hi. exists tt. split; reflexivity.
  - intros m past x r W L. pose proof (zlen_nonneg past). exists (write_at m a (zlen past) [r]). split; [apply sstore_one; auto; lia|]. split; [apply stored_write; auto; lia|apply wf_one; auto; lia].
  - intros x w0 W. eapply shape_wf; [apply (G x)|exact W].
  - lia.
  - exact Hw.
  - unfold GenerateSelf. change 0 with (zlen (@nil (unit * T))). apply Generate_tloop.
  - intros ts w' L Ht W' HL. rewrite said_results. apply holds_contents; [exact W'|unfold zlen; rewrite map_length; fold (zlen (said ts)); rewrite zlen_said; auto|].
    apply (turns_hold (fun _ : unit => gen) (fun _ _ => Some tt) (put_result a) (s_arr a) (s_off a) (map snd)) with (past := []) (w := w); auto.
    + intros past x r. left. exists r. unfold put_result. split; [unfold zlen; now rewrite map_length|now rewrite map_app].
    + intros k Hk. change (zlen (map snd (@nil (unit * T)))) with 0 in Hk. lia.
    + intros l t r E. unfold zlen at 1. rewrite map_length. apply (HL _ _ _ E).
Qed.
Print Assumptions C124_Generate.

(** ReplaceIf: a yes is followed by the store of new.  A no leaves at the place
    what the call left there. *)
Theorem C124_ReplaceIf : forall T St (pred : T -> M (world_of T St) bool) new a w, go_code pred -> wf_slice (fst w) a ->
  takes_turns pred (element a) (put_new a new) (s_len a) w (ReplaceIfSelf a pred new w) (fun ts _ w' =>
    all_left_alone (s_arr a) (s_off a) zlen ts -> forall i t, zget ts i = Some t -> element a (fst w') i = if t_result t then Some new else element a (fst (t_after t)) i).
Proof.
  intros T St pred new a w G Hw. pose proof Hw as (_ & Ho & HN & _).
  apply (tloop_turns pred (element a) (put_new a new) (sload a) (fun past _ (r : bool) => if r then sstore a (zlen past) new else ret tt) (fun m => wf_slice m a) (s_len a)) with (k := fun _ => ret tt) (g := fun _ => tt); [..|reflexivity|].
  - intros m i W Hi. destruct (zget_range (contents m a) i) as [x Hx]; [rewrite zlen_contents by auto; lia|]. exists x. split; [exact Hx|now apply sload_ok].
  - intros m past x r W L. pose proof (zlen_nonneg past). unfold put_new. destruct r; [|exists m; split; [reflexivity|]; split; [reflexivity|exact W]]. exists (write_at m a (zlen past) [new]). split; [apply sstore_one; auto; lia|]. split; [apply stored_write; auto; lia|apply wf_one; auto; lia].
  - intros x w0 W. eapply shape_wf; [apply G|exact W].
  - lia.
  - exact Hw.
  - unfold ReplaceIfSelf. change 0 with (zlen (@nil (T * bool))). apply ReplaceIf_tloop.
  - intros ts w' L Ht W' HL i t E. pose proof (zget_Some_range _ _ _ E) as Hi. destruct (turns_replace pred a new _ _ _ _ Ht) as (_ & Q).
    { intros l t0 r0 E0. specialize (HL l t0 r0 E0). rewrite zlen_said in HL. exact HL. }
    specialize (Q (Z.to_nat i) t). rewrite <- zget_ge0 in Q by lia. specialize (Q E). change (zlen (@nil (T * bool))) with 0 in Q. rewrite Z2Nat.id in Q by lia. cbn [Z.add] in Q.
    unfold element. rewrite (zget_neg_off a (fst w') i) by lia. replace (i <? s_len a) with true by lia. rewrite Q. destruct (t_result t); [reflexivity|]. rewrite (zget_neg_off a _ i) by lia. now replace (i <? s_len a) with true by lia.
Qed.
Print Assumptions C124_ReplaceIf.

(** RemoveIf: the element is read before the call and, after a no, stored behind
    the elements kept so far.  The result is the beginning of the slice, as long as
    there were noes; its elements are those the noes were about, as they were when
    asked about, if no call writes the places filled already. *)
Theorem C124_RemoveIf : forall T St (cond : T -> M (world_of T St) bool) a w, go_code cond -> wf_slice (fst w) a ->
  takes_turns cond (element a) (put_kept (s_arr a) (s_off a)) (s_len a) w (RemoveIfSelf a cond w) (fun ts r w' =>
    r = mkSlice (s_arr a) (s_off a) (zlen (nos (said ts))) (s_cap a) /\
    (all_left_alone (s_arr a) (s_off a) (fun past => zlen (nos past)) ts -> contents (fst w') r = nos (said ts))).
Proof.
  intros T St cond a w G Hw. pose proof Hw as (_ & Ho & HN & _).
  apply (tloop_turns cond (element a) (put_kept (s_arr a) (s_off a)) (sload a) (fun past x (r : bool) => if r then ret tt else sstore a (zlen (nos past)) x) (fun m => wf_slice m a) (s_len a)) with (k := fun l => bind (ret (zlen (nos l))) (fun j => lift_o (reslice_to a j))) (g := fun l => mkSlice (s_arr a) (s_off a) (zlen (nos l)) (s_cap a)).
  - intros m i W Hi. destruct (zget_range (contents m a) i) as [x Hx]; [rewrite zlen_contents by auto; lia|]. exists x. split; [exact Hx|now apply sload_ok].
  - intros m past x r W L. pose proof (nos_len past). pose proof (zlen_nonneg (nos past)). unfold put_kept. destruct r; [exists m; split; [reflexivity|]; split; [reflexivity|exact W]|]. exists (write_at m a (zlen (nos past)) [x]). split; [apply sstore_one; auto; lia|]. split; [apply stored_write; auto; lia|apply wf_one; auto; lia].
  - intros x w0 W. eapply shape_wf; [apply G|exact W].
  - lia.
  - exact Hw.
  - unfold RemoveIfSelf. etransitivity; [|apply bind_assoc_gen]. unfold bind at 1 3. f_equal. change 0 with (zlen (@nil (T * bool))) at 1. change 0 with (zlen (nos (@nil (T * bool)))). now rewrite RemoveIf_tloop.
  - intros ts w' L. pose proof (nos_len (said ts)) as Hn. rewrite zlen_said in Hn. pose proof (zlen_nonneg (nos (said ts))). unfold bind, ret, lift_o, reslice_to. rewrite reslice_ok by lia. now rewrite Z.add_0_r, !Z.sub_0_r.
  - intros ts w' L Ht W'. split; [reflexivity|]. intros HL. pose proof (nos_len (said ts)) as Hn. rewrite zlen_said in Hn. pose proof (zlen_nonneg (nos (said ts))). apply holds_contents; [apply wf_prefix; [exact W'|lia]|reflexivity|]. cbn [s_arr s_off].
    apply (turns_hold cond (element a) (put_kept (s_arr a) (s_off a)) (s_arr a) (s_off a) nos) with (past := []) (w := w); auto.
    + intros past x r. unfold put_kept. rewrite nos_snoc. destruct r; [right; auto|left]. exists x. auto.
    + intros k Hk. change (zlen (nos (@nil (T * bool)))) with 0 in Hk. lia.
Qed.
Print Assumptions C124_RemoveIf.

(** RemoveIfCopy and TransformCopy: the same with a new array, which the callback
    cannot know.  So the result is always what was answered no to, and the results. *)
Theorem C124_RemoveIfCopy : forall T St (zero : T) grow (cond : T -> M (world_of T St) bool) a w, go_code cond -> wf_slice (fst w) a -> unaware cond (length (fst w)) ->
  let new := length (fst w) in let w0 := (fst w ++ [repeat zero (Z.to_nat (s_len a))], snd w) in
  takes_turns cond (element a) (put_kept new 0) (s_len a) w0 (RemoveIfCopySelf zero grow a cond w) (fun ts r w' =>
    r = mkSlice new 0 (zlen (nos (said ts))) (s_len a) /\ contents (fst w') r = nos (said ts)).
Proof.
  intros T St zero grow cond a w G Hw Hu new w0. pose proof Hw as (Hl & Ho & HN & _). set (full := mkSlice new 0 (s_len a) (s_len a)).
  assert (Lr : zlen (repeat zero (Z.to_nat (s_len a))) = s_len a) by (unfold zlen; rewrite repeat_length; lia).
  assert (Wf : wf_slice (fst w0) full). { unfold wf_slice, arr_of. cbn. fold new. unfold new. rewrite app_length. cbn [length]. rewrite app_nth2, Nat.sub_diag by lia. cbn [nth]. lia. }
  assert (Wa : wf_slice (fst w0) a). { destruct Hw as (H1 & H2 & H3 & H4). unfold wf_slice, arr_of in *. cbn. rewrite app_length. cbn [length]. rewrite app_nth1 by lia. lia. }
  assert (Rs : RemoveIfCopySelf zero grow a cond w = RemoveIfCopySelf_loop zero grow a cond (Z.to_nat (s_len a)) 0 (mkSlice new 0 0 (s_len a)) w0).
  { unfold RemoveIfCopySelf, make_slice. replace ((0 <=? 0) && (0 <=? s_len a)) with true by lia. unfold bind, own, alloc. cbn [fst snd]. rewrite Lr. reflexivity. }
  rewrite Rs.
  apply (tloop_turns cond (element a) (put_kept new 0) (sload a) (fun past x (r : bool) => if r then ret tt else fun m => (Ok tt, write_at m (mkSlice new 0 (zlen (nos past)) (s_len a)) (zlen (nos past)) [x])) (fun m => wf_slice m a /\ wf_slice m full) (s_len a)) with (k := fun l => ret (mkSlice new 0 (zlen (nos l)) (s_len a))) (g := fun l => mkSlice new 0 (zlen (nos l)) (s_len a)).
  - intros m i [W _] Hi. destruct (zget_range (contents m a) i) as [x Hx]; [rewrite zlen_contents by auto; lia|]. exists x. split; [exact Hx|now apply sload_ok].
  - intros m past x r [W W2] L. pose proof (nos_len past). pose proof (zlen_nonneg (nos past)). unfold put_kept. destruct r; [exists m; split; [reflexivity|]; split; [reflexivity|split; assumption]|].
    assert (Wn : wf_slice m (mkSlice new 0 (zlen (nos past)) (s_len a))) by (apply (wf_prefix m full); [exact W2|cbn; lia]).
    exists (write_at m (mkSlice new 0 (zlen (nos past)) (s_len a)) (zlen (nos past)) [x]). split; [reflexivity|]. split; [exact (stored_write m _ (zlen (nos past)) x Wn ltac:(cbn; lia))|split; apply wf_one; auto; cbn; lia].
  - intros x w1 [W W2]. split; eapply shape_wf; try apply G; assumption.
  - lia.
  - split; assumption.
  - exact (RemoveIfCopy_tloop zero grow a cond new 0 (s_len a) (Z.to_nat (s_len a)) [] w0 ltac:(change (zlen (@nil (T * bool))) with 0; lia)).
  - reflexivity.
  - intros ts w' L Ht [W' W2']. split; [reflexivity|]. pose proof (nos_len (said ts)) as Hn. rewrite zlen_said in Hn. pose proof (zlen_nonneg (nos (said ts))). apply holds_contents; [apply (wf_prefix _ full); [exact W2'|cbn; lia]|reflexivity|]. cbn [s_arr s_off].
    apply (turns_hold cond (element a) (put_kept new 0) new 0 nos) with (past := []) (w := w0); auto.
    + intros past x r. unfold put_kept. rewrite nos_snoc. destruct r; [right; auto|left]. exists x. auto.
    + intros k Hk. change (zlen (nos (@nil (T * bool)))) with 0 in Hk. lia.
    + intros l t r E k Hk. assert (I : In t ts) by (rewrite E; apply in_elt). destruct (turns_inv cond (element a) (put_kept new 0) (fun m => new < length m)%nat) with (past := @nil (T * bool)) (w := w0) (ts := ts) (w' := w') (t := t) as (Lb & F); auto.
      * intros x w1 H1. exact (shape_length _ _ _ (G x w1) H1).
      * intros p m m' S H1. destruct p as [[[b j] v]|]; cbn in S; [destruct S as (-> & _); exact H1|now subst].
      * cbn. rewrite app_length. cbn [length]. unfold new. lia.
      * specialize (Hu (t_arg t) (t_before t) Lb). rewrite F in Hu. cbn [snd] in Hu. fold new in Hu. unfold slot. now rewrite Hu.
Qed.
Print Assumptions C124_RemoveIfCopy.
Theorem C124_TransformCopy : forall T St (zero : T) (op : T -> M (world_of T St) T) a w, go_code op -> wf_slice (fst w) a -> unaware op (length (fst w)) ->
  let new := mkSlice (length (fst w)) 0 (s_len a) (s_len a) in let w0 := (fst w ++ [repeat zero (Z.to_nat (s_len a))], snd w) in
  takes_turns op (element a) (put_result new) (s_len a) w0 (TransformCopySelf zero a op w) (fun ts r w' => r = new /\ contents (fst w') r = map t_result ts).
Proof.
  intros T St zero op a w G Hw Hu new w0. pose proof Hw as (Hl & Ho & HN & _).
  assert (Lr : zlen (repeat zero (Z.to_nat (s_len a))) = s_len a) by (unfold zlen; rewrite repeat_length; lia).
  assert (Wf : wf_slice (fst w0) new). { unfold wf_slice, arr_of. cbn. rewrite app_length. cbn [length]. rewrite app_nth2, Nat.sub_diag by lia. cbn [nth]. lia. }
  assert (Wa : wf_slice (fst w0) a). { destruct Hw as (H1 & H2 & H3 & H4). unfold wf_slice, arr_of in *. cbn. rewrite app_length. cbn [length]. rewrite app_nth1 by lia. lia. }
  assert (Rs : TransformCopySelf zero a op w = bind (TransformCopySelf_loop a new op (Z.to_nat (s_len a)) 0) (fun _ => ret new) w0).
  { unfold TransformCopySelf, make_slice. replace ((0 <=? s_len a) && (s_len a <=? s_len a)) with true by lia. unfold bind at 1. unfold own, alloc. cbn [fst snd]. rewrite Lr. reflexivity. }
  rewrite Rs.
  apply (tloop_turns op (element a) (put_result new) (sload a) (fun past _ r => sstore new (zlen past) r) (fun m => wf_slice m a /\ wf_slice m new) (s_len a)) with (k := fun _ => bind (ret tt) (fun _ => ret new)) (g := fun _ => new).
  - intros m i [W _] Hi. destruct (zget_range (contents m a) i) as [x Hx]; [rewrite zlen_contents by auto; lia|]. exists x. split; [exact Hx|now apply sload_ok].
  - intros m past x r [W W2] L. pose proof (zlen_nonneg past). exists (write_at m new (zlen past) [r]). split; [apply sstore_one; auto; cbn; lia|]. split; [apply stored_write; auto; cbn; lia|split; apply wf_one; auto; cbn; lia].
  - intros x w1 [W W2]. split; eapply shape_wf; try apply G; assumption.
  - lia.
  - split; assumption.
  - etransitivity; [|apply bind_assoc_gen]. unfold bind at 1 3. change 0 with (zlen (@nil (T * T))). now rewrite TransformCopy_tloop.
  - reflexivity.
  - intros ts w' L Ht [W' W2']. split; [reflexivity|]. rewrite said_results. apply holds_contents; [exact W2'|unfold zlen; rewrite map_length; fold (zlen (said ts)); rewrite zlen_said; auto|].
    apply (turns_hold op (element a) (put_result new) (s_arr new) (s_off new) (map snd)) with (past := []) (w := w0); auto.
    + intros past x r. left. exists r. unfold put_result. split; [unfold zlen; now rewrite map_length|now rewrite map_app].
    + intros k Hk. change (zlen (map snd (@nil (T * T)))) with 0 in Hk. lia.
    + intros l t r E k Hk. assert (I : In t ts) by (rewrite E; apply in_elt). destruct (turns_inv op (element a) (put_result new) (fun m => s_arr new < length m)%nat) with (past := @nil (T * T)) (w := w0) (ts := ts) (w' := w') (t := t) as (Lb & F); auto.
      * intros x w1 H1. exact (shape_length _ _ _ (G x w1) H1).
      * intros p m m' S H1. destruct p as [[[b j] v]|]; cbn in S; [destruct S as (-> & _); exact H1|now subst].
      * cbn. rewrite app_length. cbn [length]. lia.
      * specialize (Hu (t_arg t) (t_before t) Lb). rewrite F in Hu. cbn [snd] in Hu. unfold slot. cbn [s_arr new]. now rewrite Hu.
Qed.
Print Assumptions C124_TransformCopy.

(** TransformTo into a slice with room enough: result number i goes to place i of
    b, which may overlap a. *)
Theorem C124_TransformTo : forall T St (zero : T) grow (op : T -> M (world_of T St) T) a b w, go_code op -> wf_slice (fst w) a -> wf_slice (fst w) b -> s_len a <= s_cap b ->
  takes_turns op (element a) (put_result b) (s_len a) w (TransformToSelf zero grow a op b w) (fun ts r w' =>
    r = mkSlice (s_arr b) (s_off b) (s_len a) (s_cap b) /\ (all_left_alone (s_arr b) (s_off b) zlen ts -> contents (fst w') r = map t_result ts)).
Proof.
  intros T St zero grow op a b w G Hw Hb Hc. pose proof Hw as (Hl & Ho & HN & _). pose proof Hb as (_ & _ & HNb & _).
  assert (Rs : TransformToSelf zero grow a op b w = TransformToSelf_loop zero grow a op (Z.to_nat (s_len a)) 0 (mkSlice (s_arr b) (s_off b) 0 (s_cap b)) w).
  { unfold TransformToSelf. unfold bind, lift_o. rewrite reslice_ok by lia. now rewrite Z.add_0_r, !Z.sub_0_r. }
  rewrite Rs.
  apply (tloop_turns op (element a) (put_result b) (sload a) (fun past _ r m => (Ok tt, write_at m (mkSlice (s_arr b) (s_off b) (zlen past) (s_cap b)) (zlen past) [r])) (fun m => wf_slice m a /\ wf_slice m b) (s_len a)) with (k := fun l => ret (mkSlice (s_arr b) (s_off b) (zlen l) (s_cap b))) (g := fun l => mkSlice (s_arr b) (s_off b) (zlen l) (s_cap b)).
  - intros m i [W _] Hi. destruct (zget_range (contents m a) i) as [x Hx]; [rewrite zlen_contents by auto; lia|]. exists x. split; [exact Hx|now apply sload_ok].
  - intros m past x r [W W2] L. pose proof (zlen_nonneg past). assert (Wn : wf_slice m (mkSlice (s_arr b) (s_off b) (zlen past) (s_cap b))) by (apply wf_prefix; [exact W2|lia]).
    exists (write_at m (mkSlice (s_arr b) (s_off b) (zlen past) (s_cap b)) (zlen past) [r]). split; [reflexivity|]. split; [exact (stored_write m _ (zlen past) r Wn ltac:(cbn; lia))|split; apply wf_one; auto; cbn; lia].
  - intros x w1 [W W2]. split; eapply shape_wf; try apply G; assumption.
  - lia.
  - split; assumption.
  - exact (TransformTo_tloop zero grow a op (s_arr b) (s_off b) (s_cap b) (Z.to_nat (s_len a)) [] w ltac:(change (zlen (@nil (T * T))) with 0; lia)).
  - reflexivity.
  - intros ts w' L Ht [W' W2']. rewrite zlen_said, L. split; [reflexivity|]. intros HL. rewrite said_results. apply holds_contents; [apply wf_prefix; [exact W2'|lia]|cbn; unfold zlen; rewrite map_length; fold (zlen (said ts)); rewrite zlen_said; auto|]. cbn [s_arr s_off].
    apply (turns_hold op (element a) (put_result b) (s_arr b) (s_off b) (map snd)) with (past := []) (w := w); auto.
    + intros past x r. left. exists r. unfold put_result. split; [unfold zlen; now rewrite map_length|now rewrite map_app].
    + intros k Hk. change (zlen (map snd (@nil (T * T)))) with 0 in Hk. lia.
    + intros l t r E. unfold zlen at 1. rewrite map_length. apply (HL _ _ _ E).
Qed.
Print Assumptions C124_TransformTo.

(** A callback that leaves the elements of a alone gets them in order, whatever else
    it does, and the slice ends as its answers say. *)
Theorem C124_harmless : forall T St a (w : world_of T St), wf_slice (fst w) a ->
  (forall op : T -> M (world_of T St) T, go_code op -> harmless op a -> takes_turns op (element a) (put_result a) (s_len a) w (TransformSelf a op w) (fun ts _ w' =>
    map t_arg ts = contents (fst w) a /\ contents (fst w') a = map t_result ts)) /\
  (forall (pred : T -> M (world_of T St) bool) new, go_code pred -> harmless pred a -> takes_turns pred (element a) (put_new a new) (s_len a) w (ReplaceIfSelf a pred new w) (fun ts _ w' =>
    map t_arg ts = contents (fst w) a /\ contents (fst w') a = map (fun t : turn T St T bool => if t_result t then new else t_arg t) ts)) /\
  (forall cond : T -> M (world_of T St) bool, go_code cond -> harmless cond a -> takes_turns cond (element a) (put_kept (s_arr a) (s_off a)) (s_len a) w (RemoveIfSelf a cond w) (fun ts r w' =>
    map t_arg ts = contents (fst w) a /\ contents (fst w') r = nos (said ts))).
Proof.
  intros T St a w Hw. pose proof Hw as (_ & Ho & HN & _). split; [|split].
  - intros op G Hh. eapply takes_turns_impl; [|apply C124_Transform; auto]. cbn. intros ts _ w' L Ht D. split.
    + eapply harmless_all with (put := put_result a); eauto. unfold put_result. intros past x r b j v E _. inversion E. lia.
    + apply D. eapply harmless_left; eauto; lia.
  - intros pred new G Hh. eapply takes_turns_impl; [|apply C124_ReplaceIf; auto]. cbn. intros ts _ w' L Ht D. split.
    + eapply harmless_all with (put := put_new a new); eauto. unfold put_new. intros past x [] b j v E _; inversion E. lia.
    + assert (HL : all_left_alone (s_arr a) (s_off a) zlen ts) by (eapply harmless_left; eauto; lia). specialize (D HL). 
      apply zlist_eq. intros i Hi. destruct (Z_lt_le_dec i (zlen ts)) as [Hl|Hg].
      2:{ rewrite zget_neg_off by lia. replace (i <? s_len a) with false by lia. symmetry. apply zget_None. right. unfold zlen in *. now rewrite map_length. }
      destruct (zget_range ts i ltac:(lia)) as [t Et]. specialize (D i t Et). unfold element in D at 1. rewrite D.
      assert (En : nth_error ts (Z.to_nat i) = Some t) by (unfold zget in Et; replace (i <? 0) with false in Et by lia; exact Et).
      assert (Em : zget (map (fun t : turn T St T bool => if t_result t then new else t_arg t) ts) i = Some (if t_result t then new else t_arg t)) by (unfold zget; replace (i <? 0) with false by lia; now apply (map_nth_error (fun t : turn T St T bool => if t_result t then new else t_arg t))). rewrite Em.
      destruct (t_result t); [reflexivity|]. pose proof (turns_nth _ _ _ _ _ _ _ Ht _ _ En) as Q. change (zlen (@nil (T * bool))) with 0 in Q. replace (0 + Z.of_nat (Z.to_nat i)) with i in Q by lia. rewrite <- Q.
      assert (I : In t ts) by (eapply nth_error_In; eauto). pose proof (turns_in _ _ _ _ _ _ _ Ht t I) as F. pose proof (Hh (t_arg t) (t_before t)) as Hc. rewrite F in Hc. cbn [snd] in Hc. unfold element. now rewrite Hc.
  - intros cond G Hh. eapply takes_turns_impl; [|apply C124_RemoveIf; auto]. cbn. intros ts r w' L Ht (_ & D). split.
    + eapply harmless_all with (put := put_kept (s_arr a) (s_off a)); eauto. unfold put_kept. intros past x [] b j v E _; inversion E. pose proof (nos_len past). lia.
    + apply D. eapply harmless_left; eauto; try lia. apply nos_len.
Qed.
Print Assumptions C124_harmless.

(** Expected: what op returns depends on its argument alone, so Transform maps it;
    and likewise RemoveIf filters. *)
Definition C124_expected_Transform := forall T St (op : T -> M (world_of T St) T) g a w, go_code op -> wf_slice (fst w) a ->
  (forall x w, exists w', op x w = (Ok (g x), w')) -> contents (fst (snd (TransformSelf a op w))) a = map g (contents (fst w) a).
Definition C124_expected_RemoveIf := forall T St (cond : T -> M (world_of T St) bool) g a w, go_code cond -> wf_slice (fst w) a ->
  (forall x w, exists w', cond x w = (Ok (g x), w')) -> exists r w', RemoveIfSelf a cond w = (Ok r, w') /\ contents (fst w') r = filter (fun x => negb (g x)) (contents (fst w) a).

(** A callback that sets place 0 of array 0 to 9. *)
Definition scribble {X} (g : Z -> X) (x : Z) : M (world_of Z unit) X := fun w => (Ok (g x), (upd 0 (zupd (nth 0 (fst w) []) 0 9) (fst w), tt)).
Lemma scribble_ok {X} (g : Z -> X) : go_code (scribble g).
Proof.
  intros x [m []] b s E. cbn. destruct b as [|b].
  - destruct m as [|l m]; [discriminate|]. cbn in *. inversion E; subst l. eexists. split; [reflexivity|]. destruct s; reflexivity.
  - destruct m as [|l m]; [discriminate|]. cbn in *. exists s. auto.
Qed.
Theorem C124_refuted_Transform : ~ C124_expected_Transform.
Proof.
  intros H. specialize (H Z unit (scribble (fun x => x + 1)) (fun x => x + 1) (mkSlice 0 0 2 2) ([[1; 2]], tt) (scribble_ok _)).
  assert (W : wf_slice [[1; 2]] (mkSlice 0 0 2 2)) by (unfold wf_slice, zlen; simpl; lia). specialize (H W ltac:(intros x w; eexists; reflexivity)). vm_compute in H. discriminate.
Qed.
Print Assumptions C124_refuted_Transform.
Theorem C124_refuted_RemoveIf : ~ C124_expected_RemoveIf.
Proof.
  intros H. specialize (H Z unit (scribble (fun _ => false)) (fun _ => false) (mkSlice 0 0 2 2) ([[1; 2]], tt) (scribble_ok _)).
  assert (W : wf_slice [[1; 2]] (mkSlice 0 0 2 2)) by (unfold wf_slice, zlen; simpl; lia). specialize (H W ltac:(intros x w; eexists; reflexivity)). destruct H as (r & w' & E & C). vm_compute in E. inversion E; subst. vm_compute in C. discriminate.
Qed.
Print Assumptions C124_refuted_RemoveIf.

(** A callback that writes memory the functions use, and the slices meet the
    hypotheses; the slice is written ahead, so what is read differs. *)
Example C124_hyp : go_code (scribble (fun x => x + 1)) /\ wf_slice [[1; 2; 3; 4]; [5; 6]] (mkSlice 0 1 3 3) /\ wf_slice [[1; 2; 3; 4]; [5; 6]] (mkSlice 0 0 2 4) /\ unaware (scribble (fun _ => false)) 2 /\ harmless (scribble (fun x => x + 1)) (mkSlice 0 1 3 3).
Proof.
  split; [apply scribble_ok|]. split; [unfold wf_slice, zlen; simpl; lia|]. split; [unfold wf_slice, zlen; simpl; lia|]. split.
  - intros x [m []] L. cbn in *. destruct m as [|l m]; [cbn in L; lia|]. reflexivity.
  - intros x [m []]. cbn. destruct m as [|l m]; [reflexivity|]. unfold contents, arr_of. cbn. destruct l as [|y l]; reflexivity.
Qed.
Example C124_runs :
  (let '(o, w) := TransformToSelf 0 (fun c n => n) (mkSlice 0 0 3 4) (fun x => ret (x * 10)) (mkSlice 0 1 0 3) ([[1; 2; 3; 4]], tt) in (o, fst w)) = (Ok (mkSlice 0 1 3 3), [[1; 10; 100; 1000]]) /\
  (let '(o, w) := ReplaceIfSelf (mkSlice 0 0 3 3) (scribble (fun x => x =? 2)) 7 ([[1; 2; 3]], tt) in (o, fst w)) = (Ok tt, [[9; 7; 3]]).
Proof. split; reflexivity. Qed.
