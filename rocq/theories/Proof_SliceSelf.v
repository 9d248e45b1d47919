(** Lemmas for C124. *)
From Verif Require Import BaseLemmas Proof_Mem Spec_LookupFx Model_TransformFx Proof_TransformFx Model_LookupFx Proof_LookupFx Spec_SliceSelf Model_SliceSelf.

(** ** One store *)
Section Store.
Context {T : Type}.
Implicit Types (m : mem T) (a s : slice).
Lemma slot_neg m b j : j < 0 -> slot m b j = None.
Proof. intros H. unfold slot. now apply zget_lt0. Qed.
Lemma stored_write m s i v : wf_slice m s -> 0 <= i < s_cap s -> stored (Some (s_arr s, s_off s + i, v)) m (write_at m s i [v]).
Proof.
  intros (H1 & H2 & H3 & H4) Hi. cbn [stored]. split; [apply write_at_length|].
  assert (L : zlen [v] = 1) by reflexivity.
  split; [unfold slot; rewrite write_at_nth, zget_zwrite by lia; replace ((s_off s + i <=? s_off s + i) && (s_off s + i <? s_off s + i + zlen [v])) with true by lia; now rewrite Z.sub_diag|].
  intros b j N. destruct (Z.ltb_spec j 0); [now rewrite !slot_neg|]. unfold slot. destruct (Nat.eq_dec b (s_arr s)) as [->|E]; [|now rewrite write_at_nth_other].
  assert (j <> s_off s + i) by congruence. rewrite write_at_nth, zget_zwrite by lia. replace ((s_off s + i <=? j) && (j <? s_off s + i + zlen [v])) with false by lia. reflexivity.
Qed.
Lemma write_one m s i v : wf_slice m s -> 0 <= i < s_len s -> write_at m s 0 (zupd (contents m s) i v) = write_at m s i [v].
Proof.
  intros W Hi. pose proof W as (H1 & H2 & H3 & H4). unfold write_at. f_equal. pose proof (zlen_contents m s W) as L. assert (Lu : zlen (zupd (contents m s) i v) = s_len s) by (rewrite zlen_zupd; exact L).
  assert (L1 : zlen [v] = 1) by reflexivity.
  apply zlist_eq. intros j Hj. rewrite !zget_zwrite by lia. rewrite Lu, L1. destruct (Z.leb_spec (s_off s + i) j), (Z.ltb_spec j (s_off s + i + 1)); cbn [andb].
  - replace j with (s_off s + i) by lia. replace ((s_off s + 0 <=? s_off s + i) && (s_off s + i <? s_off s + 0 + s_len s)) with true by lia. rewrite Z.add_0_r, Z.sub_diag. replace (s_off s + i - s_off s) with i by lia. rewrite zget_zupd_eq by lia. reflexivity.
  - destruct (Z.ltb_spec j (s_off s + 0 + s_len s)); [|now rewrite andb_false_r]. replace (s_off s + 0 <=? j) with true by lia. cbn [andb]. rewrite zget_zupd_ne by lia. rewrite zget_contents by (auto; lia). replace (j - (s_off s + 0) <? s_len s) with true by lia. f_equal. lia.
  - destruct (Z.leb_spec (s_off s + 0) j); [|reflexivity]. replace (j <? s_off s + 0 + s_len s) with true by lia. cbn [andb]. rewrite zget_zupd_ne by lia. rewrite zget_contents by (auto; lia). replace (j - (s_off s + 0) <? s_len s) with true by lia. f_equal. lia.
  - lia.
Qed.
Lemma sstore_one m s i v : wf_slice m s -> 0 <= i < s_len s -> sstore s i v m = (Ok tt, write_at m s i [v]).
Proof. intros W Hi. rewrite sstore_ok by auto. now rewrite write_one. Qed.
Lemma wf_one m s i v s' : wf_slice m s -> 0 <= i < s_cap s -> wf_slice m s' -> wf_slice (write_at m s i [v]) s'.
Proof. intros W Hi. pose proof W as (_ & _ & H3 & H4). apply wf_write_at; auto; try lia. change (zlen [v]) with 1. lia. Qed.
Lemma append_one zero grow m s v : s_len s < s_cap s -> append_list zero grow s [v] m = (Ok (mkSlice (s_arr s) (s_off s) (s_len s + 1) (s_cap s)), write_at m s (s_len s) [v]).
Proof. intros H. unfold append_list. change (zlen [v]) with 1. now replace (s_len s + 1 <=? s_cap s) with true by lia. Qed.
Lemma contents_slot m s i : wf_slice m s -> 0 <= i < s_len s -> zget (contents m s) i = slot m (s_arr s) (s_off s + i).
Proof. intros W Hi. rewrite zget_contents by (auto; lia). now replace (i <? s_len s) with true by lia. Qed.
(** A slice whose places hold l. *)
Definition holds (b : nat) (o : Z) m (l : list T) : Prop := forall k, 0 <= k < zlen l -> slot m b (o + k) = zget l k.
Lemma holds_contents m s l : wf_slice m s -> s_len s = zlen l -> holds (s_arr s) (s_off s) m l -> contents m s = l.
Proof.
  intros W L H. apply zlist_eq. intros i Hi. destruct (Z.ltb_spec i (s_len s)).
  - rewrite contents_slot by (auto; lia). apply H. lia.
  - rewrite (proj2 (zget_None (contents m s) i)) by (rewrite zlen_contents by auto; lia). symmetry. apply zget_None. lia.
Qed.
End Store.

(** ** Loops of turns *)
Section Loop.
Context {T St A R : Type}.
Notation W := (world_of T St).
Variable f : A -> M W R.
Variable arg : mem T -> Z -> option A.
Variable put : list (A * R) -> A -> R -> option (nat * Z * T).
Variable ld : Z -> M (mem T) A.
Variable st : list (A * R) -> A -> R -> M (mem T) unit.
Variable inv : mem T -> Prop.
Variable N : Z.
Hypothesis Hld : forall m i, inv m -> 0 <= i < N -> exists x, arg m i = Some x /\ ld i m = (Ok x, m).
Hypothesis Hst : forall m past x r, inv m -> zlen past < N -> exists m', st past x r m = (Ok tt, m') /\ stored (put past x r) m m' /\ inv m'.
Hypothesis Hf : forall x w, inv (fst w) -> inv (fst (snd (f x w))).
Fixpoint tloop (n : nat) (past : list (A * R)) : M W (list (A * R)) :=
  match n with
  | O => ret past
  | S n' => x <- own (ld (zlen past)) ;; r <- f x ;; own (st past x r) ;; tloop n' (past ++ [(x, r)])
  end.
Lemma zlen_said (ts : list (turn T St A R)) : zlen (said ts) = zlen ts.
Proof. unfold said, zlen. now rewrite map_length. Qed.
Lemma tloop_ok : forall n past w, inv (fst w) -> zlen past + Z.of_nat n = N ->
  let stop o w' := exists ts w1 x, zlen ts < Z.of_nat n /\ turns f arg put past w ts w1 /\ arg (fst w1) (zlen past + zlen ts) = Some x /\ f x w1 = (o, w') in
  match tloop n past w with
  | (Ok l, w') => exists ts, zlen ts = Z.of_nat n /\ turns f arg put past w ts w' /\ l = past ++ said ts /\ inv (fst w')
  | (Panic, w') => stop Panic w'
  | (NoFuel, w') => stop NoFuel w'
  end.
Proof.
  induction n as [|n IH]; intros past w I L; cbn zeta; cbn [tloop].
  - cbn. exists []. repeat split; try constructor; auto. now rewrite app_nil_r.
  - destruct (Hld (fst w) (zlen past) I) as (x & Ex & El); [pose proof (zlen_nonneg past); lia|]. destruct w as [m s0]. cbn [fst] in *. rewrite (bind_own _ _ _ _ _ _ El).
    unfold bind at 1. pose proof (Hf x (m, s0) I) as I1. destruct (f x (m, s0)) as [[r| |] w1] eqn:F; cbn [fst snd] in *.
    2,3: exists [], (m, s0), x; (split; [unfold zlen; cbn [length]; lia|]); (split; [constructor|]); cbn [fst]; (split; [|exact F]); change (zlen (@nil (turn T St A R))) with 0; rewrite Z.add_0_r; exact Ex.
    destruct (Hst (fst w1) past x r I1) as (m2 & Es & Hs & I2); [lia|]. destruct w1 as [m1 s1]. cbn [fst snd] in *. rewrite (bind_own _ _ _ _ _ _ Es).
    specialize (IH (past ++ [(x, r)]) (m2, s1) I2 ltac:(unfold zlen in *; rewrite app_length; cbn [length]; lia)). cbn zeta in IH.
    assert (L1 : forall k, zlen (past ++ [(x, r)]) + k = zlen past + (k + 1)) by (intros k; unfold zlen; rewrite app_length; cbn [length]; lia).
    assert (LC : forall (t : turn T St A R) ts, zlen (t :: ts) = zlen ts + 1) by (intros t ts; unfold zlen; cbn [length]; lia).
    destruct (tloop n (past ++ [(x, r)]) (m2, s1)) as [[l| |] w'].
    + destruct IH as (ts & Lt & Ht & -> & I'). exists (Turn x (m, s0) r (m1, s1) :: ts). split; [rewrite LC; lia|]. split; [eapply turns_next; cbn [fst snd]; eauto|]. split; [cbn; now rewrite <- app_assoc|exact I'].
    + destruct IH as (ts & w2 & y & Lt & Ht & Ey & Fy). exists (Turn x (m, s0) r (m1, s1) :: ts), w2, y. split; [rewrite LC; lia|]. split; [eapply turns_next; cbn [fst snd]; eauto|]. split; [|exact Fy]. rewrite LC, <- L1. exact Ey.
    + destruct IH as (ts & w2 & y & Lt & Ht & Ey & Fy). exists (Turn x (m, s0) r (m1, s1) :: ts), w2, y. split; [rewrite LC; lia|]. split; [eapply turns_next; cbn [fst snd]; eauto|]. split; [|exact Fy]. rewrite LC, <- L1. exact Ey.
Qed.
(** The loop as a whole, and what the caller makes of its result. *)
Lemma tloop_turns {B} (F : M W B) (k : list (A * R) -> M W B) (g : list (A * R) -> B) (done : list (turn T St A R) -> B -> W -> Prop) w : 0 <= N -> inv (fst w) ->
  F w = bind (tloop (Z.to_nat N) []) k w -> (forall (ts : list (turn T St A R)) w', zlen ts = N -> k (said ts) w' = (Ok (g (said ts)), w')) ->
  (forall ts w', zlen ts = N -> turns f arg put [] w ts w' -> inv (fst w') -> done ts (g (said ts)) w') ->
  takes_turns f arg put N w (F w) done.
Proof.
  intros HN I E K D. rewrite E. unfold bind. pose proof (tloop_ok (Z.to_nat N) [] w I) as Q. cbn zeta in Q. change (zlen (@nil (A * R))) with 0 in Q. specialize (Q ltac:(lia)). rewrite Z2Nat.id in Q by lia.
  destruct (tloop (Z.to_nat N) [] w) as [[l| |] w']; cbn [takes_turns].
  - destruct Q as (ts & L & Ht & -> & I'). cbn [app]. rewrite K by exact L. exists ts. auto.
  - exact Q.
  - exact Q.
Qed.
Lemma said_results (ts : list (turn T St A R)) : map t_result ts = map snd (said ts).
Proof. unfold said. rewrite map_map. reflexivity. Qed.
End Loop.

(** ** What the places hold in the end *)
Section Final.
Context {T St A R : Type}.
Notation W := (world_of T St).
Variable f : A -> M W R.
Variable arg : mem T -> Z -> option A.
Variable put : list (A * R) -> A -> R -> option (nat * Z * T).
Variables (b : nat) (o : Z) (out : list (A * R) -> list T).
Hypothesis Hput : forall past x r,
  (exists v, put past x r = Some (b, o + zlen (out past), v) /\ out (past ++ [(x, r)]) = out past ++ [v]) \/ (put past x r = None /\ out (past ++ [(x, r)]) = out past).
Lemma turns_hold past w ts w' : turns f arg put past w ts w' -> holds b o (fst w) (out past) ->
  (forall l t r, ts = l ++ t :: r -> left_alone b o (zlen (out (past ++ said l))) t) -> holds b o (fst w') (out (past ++ said ts)).
Proof.
  induction 1 as [past w|past w x r w1 m2 ts w3 Ex F S Ht IH]; intros H0 HL; [cbn; now rewrite app_nil_r|].
  replace (past ++ said (Turn x w r w1 :: ts)) with ((past ++ [(x, r)]) ++ said ts) by (rewrite <- app_assoc; reflexivity). apply IH.
  - assert (H1 : holds b o (fst w1) (out past)).
    { intros k Hk. specialize (HL [] (Turn x w r w1) ts eq_refl k). cbn [said map t_after t_before] in HL. rewrite app_nil_r in HL. rewrite HL by exact Hk. now apply H0. }
    cbn [fst]. destruct (Hput past x r) as [(v & Ep & Eo)|(Ep & Eo)]; rewrite Ep in S; rewrite Eo.
    + destruct S as (_ & Sv & So). intros k Hk. unfold zlen in Hk. rewrite app_length in Hk. cbn [length] in Hk. destruct (Z.eq_dec k (zlen (out past))) as [->|Nk].
      * rewrite Sv, zget_app_r by lia. now rewrite Z.sub_diag.
      * rewrite So by (intros Q; inversion Q; lia). rewrite zget_app_l by (unfold zlen in *; lia). apply H1. unfold zlen in *. lia.
    + cbn [stored] in S. subst m2. exact H1.
  - intros l t r' E. specialize (HL (Turn x w r w1 :: l) t r'). cbn [app] in HL. rewrite E in HL. specialize (HL eq_refl). replace ((past ++ [(x, r)]) ++ said l) with (past ++ said (Turn x w r w1 :: l)) by (rewrite <- app_assoc; reflexivity). exact HL.
Qed.
End Final.

(** ** Callbacks that leave the slice alone *)
Section Harmless.
Context {T St R : Type}.
Notation W := (world_of T St).
Variable f : T -> M W R.
Variable a : slice.
Variable put : list (T * R) -> T -> R -> option (nat * Z * T).
Hypothesis Hput : forall past x r b j v, put past x r = Some (b, j, v) -> b = s_arr a -> j <= s_off a + zlen past.
Hypothesis Hf : forall x w, contents (fst (snd (f x w))) a = contents (fst w) a.
Lemma zget_neg_off (m : mem T) k : 0 <= s_off a -> 0 <= k -> zget (contents m a) k = if k <? s_len a then slot m (s_arr a) (s_off a + k) else None.
Proof using Type. intros Ho Hk. unfold contents. rewrite zget_zsub by lia. replace (s_off a + s_len a - s_off a) with (s_len a) by lia. reflexivity. Qed.
Lemma harmless_args past w ts w' : 0 <= s_off a -> turns f (element a) put past w ts w' ->
  forall k t, nth_error ts k = Some t -> zget (contents (fst w) a) (zlen past + Z.of_nat k) = Some (t_arg t).
Proof using Hput Hf.
  intros Ho. induction 1 as [past w|past w x r w1 m2 ts w3 Ex F S Ht IH]; intros k t E; [destruct k; discriminate|].
  destruct k as [|k]; [inversion E; subst; rewrite Z.add_0_r; exact Ex|]. cbn [nth_error] in E. specialize (IH k t E). cbn [fst] in IH. rewrite <- IH.
  replace (zlen (past ++ [(x, r)]) + Z.of_nat k) with (zlen past + Z.of_nat (Datatypes.S k)) by (unfold zlen; rewrite app_length; cbn [length]; lia).
  pose proof (Hf x w) as Hc. rewrite F in Hc. cbn [fst snd] in Hc. rewrite <- Hc. pose proof (zlen_nonneg past). rewrite !zget_neg_off by lia. destruct (_ <? s_len a); [|reflexivity].
  destruct (put past x r) as [[[b j] v]|] eqn:Ep; [|cbn in S; now subst m2]. destruct S as (_ & _ & So). rewrite So; [reflexivity|]. intros Q. inversion Q as [[Q1 Q2]]. pose proof (Hput _ _ _ _ _ _ Ep (eq_sym Q1)). lia.
Qed.
End Harmless.

Lemma bind_assoc_gen {S A B C} (p : M S A) (q : A -> M S B) (r : B -> M S C) w : bind (bind p q) r w = bind p (fun x => bind (q x) r) w.
Proof. unfold bind. destruct (p w) as [[x| |] w1]; reflexivity. Qed.
Ltac assoc := etransitivity; [|symmetry; apply bind_assoc_gen].

(** ** The functions are such loops *)
Section Loops.
Context {T St : Type}.
Notation W := (world_of T St).
Variable zero : T.
Variable grow : Z -> Z -> Z.
Implicit Types (w : W) (a b : slice) (op : T -> M W T) (cond : T -> M W bool).
Lemma zlen_snoc {X} (l : list X) x : zlen (l ++ [x]) = zlen l + 1.
Proof. unfold zlen. rewrite app_length. cbn [length]. lia. Qed.
Lemma nos_snoc (past : list (T * bool)) x c : nos (past ++ [(x, c)]) = if c then nos past else nos past ++ [x].
Proof using Type. unfold nos. rewrite filter_app, map_app. cbn. destruct c; cbn; now rewrite ?app_nil_r. Qed.
Lemma nos_len (past : list (T * bool)) : zlen (nos past) <= zlen past.
Proof using Type.
  induction past as [|[x c] past IH] using rev_ind; [cbn; lia|]. rewrite nos_snoc, (zlen_snoc past). destruct c; [lia|]. rewrite zlen_snoc. lia.
Qed.
Lemma Transform_tloop a op n : forall past w, TransformSelf_loop a op n (zlen past) w = bind (tloop op (sload a) (fun past _ r => sstore a (zlen past) r) n past) (fun _ => ret tt) w.
Proof using Type.
  induction n as [|n IH]; intros past w; [reflexivity|]. cbn [TransformSelf_loop tloop]. assoc. apply bind_ext_at. intros x w1. assoc. apply bind_ext_at. intros r w2. assoc. apply bind_ext_at. intros _ w3.
  rewrite <- (zlen_snoc past (x, r)). apply IH.
Qed.
Lemma Generate_tloop a (gen : M W T) n : forall past w, GenerateSelf_loop a gen n (zlen past) w = bind (tloop (fun _ : unit => gen) (fun _ => ret tt) (fun past _ r => sstore a (zlen past) r) n past) (fun _ => ret tt) w.
Proof using Type.
  induction n as [|n IH]; intros past w; [reflexivity|]. cbn [GenerateSelf_loop tloop]. assoc. unfold bind at 2. unfold own at 2, ret at 1. cbn [fst snd]. destruct w as [m s0]. cbn [fst snd]. assoc. apply bind_ext_at. intros r w2. assoc. apply bind_ext_at. intros _ w3.
  rewrite <- (zlen_snoc past (tt, r)). apply IH.
Qed.
Lemma ReplaceIf_tloop a cond new n : forall past w, ReplaceIfSelf_loop a cond new n (zlen past) w = bind (tloop cond (sload a) (fun past _ (r : bool) => if r then sstore a (zlen past) new else ret tt) n past) (fun _ => ret tt) w.
Proof using Type.
  induction n as [|n IH]; intros past w; [reflexivity|]. cbn [ReplaceIfSelf_loop tloop]. assoc. apply bind_ext_at. intros x w1. assoc. apply bind_ext_at. intros r w2. assoc. 
  transitivity (bind (own (if r then sstore a (zlen past) new else ret tt)) (fun _ => ReplaceIfSelf_loop a cond new n (zlen past + 1)) w2); [destruct r; [reflexivity|destruct w2; reflexivity]|].
  apply bind_ext_at. intros _ w3. rewrite <- (zlen_snoc past (x, r)). apply IH.
Qed.
Lemma RemoveIf_tloop a cond n : forall past w, RemoveIfSelf_loop a cond n (zlen past) (zlen (nos past)) w = bind (tloop cond (sload a) (fun past x (r : bool) => if r then ret tt else sstore a (zlen (nos past)) x) n past) (fun l => ret (zlen (nos l))) w.
Proof using Type.
  induction n as [|n IH]; intros past w; [reflexivity|]. cbn [RemoveIfSelf_loop tloop]. assoc. apply bind_ext_at. intros x w1. assoc. apply bind_ext_at. intros r w2. assoc.
  rewrite <- (zlen_snoc past (x, r)). specialize (IH (past ++ [(x, r)])). rewrite nos_snoc in IH. destruct r; cbn [negb].
  - transitivity (bind (own (ret tt)) (fun _ : unit => RemoveIfSelf_loop a cond n (zlen (past ++ [(x, true)])) (zlen (nos past))) w2); [destruct w2; reflexivity|]. apply bind_ext_at. intros _ w3. apply IH.
  - apply bind_ext_at. intros _ w3. rewrite <- (zlen_snoc (nos past) x). apply IH.
Qed.
Lemma RemoveIfCopy_tloop a cond arr off cap n : forall past w, zlen past + Z.of_nat n <= cap ->
  RemoveIfCopySelf_loop zero grow a cond n (zlen past) (mkSlice arr off (zlen (nos past)) cap) w =
  bind (tloop cond (sload a) (fun past x (r : bool) => if r then ret tt else fun m => (Ok tt, write_at m (mkSlice arr off (zlen (nos past)) cap) (zlen (nos past)) [x])) n past) (fun l => ret (mkSlice arr off (zlen (nos l)) cap)) w.
Proof using Type.
  induction n as [|n IH]; intros past w L; [reflexivity|]. cbn [RemoveIfCopySelf_loop tloop]. assoc. apply bind_ext_at. intros x w1. assoc. apply bind_ext_at. intros r w2. assoc.
  rewrite <- (zlen_snoc past (x, r)). specialize (IH (past ++ [(x, r)])). rewrite nos_snoc in IH. rewrite (zlen_snoc past) in IH. rewrite (zlen_snoc past). pose proof (nos_len past). destruct r; cbn [negb].
  - transitivity (bind (own (ret tt)) (fun _ : unit => RemoveIfCopySelf_loop zero grow a cond n (zlen past + 1) (mkSlice arr off (zlen (nos past)) cap)) w2); [destruct w2; reflexivity|]. apply bind_ext_at. intros _ w3. apply IH. lia.
  - destruct w2 as [m2 s2]. rewrite (bind_own _ _ _ _ _ _ (append_one zero grow m2 (mkSlice arr off (zlen (nos past)) cap) x ltac:(cbn [s_len s_cap]; lia))). cbn [s_arr s_off s_len s_cap].
    unfold bind at 1. unfold own at 1. cbn [fst snd]. rewrite <- (zlen_snoc (nos past) x). apply IH. lia.
Qed.
Lemma TransformCopy_tloop a r0 op n : forall past w, TransformCopySelf_loop a r0 op n (zlen past) w = bind (tloop op (sload a) (fun past _ r => sstore r0 (zlen past) r) n past) (fun _ => ret tt) w.
Proof using Type.
  induction n as [|n IH]; intros past w; [reflexivity|]. cbn [TransformCopySelf_loop tloop]. assoc. apply bind_ext_at. intros x w1. assoc. apply bind_ext_at. intros r w2. assoc. apply bind_ext_at. intros _ w3.
  rewrite <- (zlen_snoc past (x, r)). apply IH.
Qed.
Lemma TransformTo_tloop a op arr off cap n : forall past w, zlen past + Z.of_nat n <= cap ->
  TransformToSelf_loop zero grow a op n (zlen past) (mkSlice arr off (zlen past) cap) w =
  bind (tloop op (sload a) (fun past _ r m => (Ok tt, write_at m (mkSlice arr off (zlen past) cap) (zlen past) [r])) n past) (fun l => ret (mkSlice arr off (zlen l) cap)) w.
Proof using Type.
  induction n as [|n IH]; intros past w L; [reflexivity|]. cbn [TransformToSelf_loop tloop]. assoc. apply bind_ext_at. intros x w1. assoc. apply bind_ext_at. intros r w2. assoc.
  specialize (IH (past ++ [(x, r)])). rewrite (zlen_snoc past) in IH. destruct w2 as [m2 s2]. rewrite (bind_own _ _ _ _ _ _ (append_one zero grow m2 (mkSlice arr off (zlen past) cap) r ltac:(cbn [s_len s_cap]; lia))). cbn [s_arr s_off s_len s_cap].
  unfold bind at 1. unfold own at 1. cbn [fst snd]. rewrite IH by lia. reflexivity.
Qed.
End Loops.

(** ** More about turns *)
Lemma shape_length {T} (m m' : mem T) n : same_shape m m' -> (n < length m)%nat -> (n < length m')%nat.
Proof. intros H L. destruct (nth_error m n) as [s|] eqn:E; [|apply nth_error_None in E; lia]. destruct (H _ _ E) as (s' & E' & _). apply nth_error_Some. congruence. Qed.
Section More.
Context {T St A R : Type}.
Notation W := (world_of T St).
Variable f : A -> M W R.
Variable arg : mem T -> Z -> option A.
Variable put : list (A * R) -> A -> R -> option (nat * Z * T).
Lemma turns_in past w ts w' : turns f arg put past w ts w' -> forall t, In t ts -> f (t_arg t) (t_before t) = (Ok (t_result t), t_after t).
Proof. induction 1 as [|past w x r w1 m2 ts w3 Ex F S Ht IH]; intros t I; [destruct I|]. destruct I as [<-|I]; [exact F|now apply IH]. Qed.
Lemma takes_turns_impl {B} n w (r : outcome B * W) (d1 d2 : list (turn T St A R) -> B -> W -> Prop) :
  (forall ts v w', zlen ts = n -> turns f arg put [] w ts w' -> d1 ts v w' -> d2 ts v w') -> takes_turns f arg put n w r d1 -> takes_turns f arg put n w r d2.
Proof. intros H. destruct r as [[v| |] w']; cbn; auto. intros (ts & L & Ht & D). exists ts. auto. Qed.
Lemma turns_nth past w ts w' : turns f arg put past w ts w' -> forall k t, nth_error ts k = Some t -> arg (fst (t_before t)) (zlen past + Z.of_nat k) = Some (t_arg t).
Proof.
  induction 1 as [|past w x r w1 m2 ts w3 Ex F S Ht IH]; intros [|k] t E; try discriminate; [inversion E; subst; rewrite Z.add_0_r; exact Ex|]. cbn [nth_error] in E. specialize (IH k t E).
  replace (zlen past + Z.of_nat (Datatypes.S k)) with (zlen (past ++ [(x, r)]) + Z.of_nat k) by (rewrite zlen_snoc; lia). exact IH.
Qed.
Lemma turns_inv (inv : mem T -> Prop) past w ts w' : (forall x w, inv (fst w) -> inv (fst (snd (f x w)))) -> (forall p m m', stored p m m' -> inv m -> inv m') ->
  turns f arg put past w ts w' -> inv (fst w) -> forall t, In t ts -> inv (fst (t_before t)) /\ f (t_arg t) (t_before t) = (Ok (t_result t), t_after t).
Proof.
  intros Hf Hs. induction 1 as [|past w x r w1 m2 ts w3 Ex F S Ht IH]; intros I0 t I; [destruct I|]. destruct I as [<-|I]; [split; [exact I0|exact F]|].
  apply IH; [|exact I]. cbn [fst]. apply (Hs _ _ _ S). pose proof (Hf x w I0) as Q. now rewrite F in Q.
Qed.
Lemma harmless_left a o len past w ts w' n : turns f arg put past w ts w' -> harmless f a -> 0 <= s_off a -> zlen ts = n -> n <= s_len a -> o = s_off a -> (forall l, len l <= zlen l) -> all_left_alone (s_arr a) o len ts.
Proof.
  intros Ht Hh Ho L Ln -> Hl l t r E k Hk. assert (I : In t ts) by (rewrite E; apply in_elt). pose proof (turns_in _ _ _ _ Ht t I) as F. pose proof (Hh (t_arg t) (t_before t)) as Hc. rewrite F in Hc. cbn [snd] in Hc.
  assert (Hz : k < s_len a). { specialize (Hl (said l)). rewrite zlen_said in Hl. rewrite E in L. unfold zlen in *. rewrite app_length in L. cbn [length] in L. lia. }
  pose proof (zget_neg_off a (fst (t_after t)) k Ho ltac:(lia)) as E1. pose proof (zget_neg_off a (fst (t_before t)) k Ho ltac:(lia)) as E2. rewrite Hc in E1. rewrite E1 in E2. replace (k <? s_len a) with true in E2 by lia. exact E2.
Qed.
End More.
Section Replace.
Context {T St : Type}.
Notation W := (world_of T St).
Variable f : T -> M W bool.
Variables (a : slice) (new : T).
Lemma turns_replace past w ts w' : turns f (element a) (put_new a new) past w ts w' -> 
  (forall l t r, ts = l ++ t :: r -> left_alone (s_arr a) (s_off a) (zlen past + zlen l) t) ->
  (forall k, 0 <= k < zlen past -> slot (fst w') (s_arr a) (s_off a + k) = slot (fst w) (s_arr a) (s_off a + k)) /\
  (forall k t, nth_error ts k = Some t -> slot (fst w') (s_arr a) (s_off a + (zlen past + Z.of_nat k)) = if t_result t then Some new else slot (fst (t_after t)) (s_arr a) (s_off a + (zlen past + Z.of_nat k))).
Proof.
  induction 1 as [past w|past w x r w1 m2 ts w3 Ex F S Ht IH]; intros HL; [split; [auto|intros [|k] t E; discriminate]|].
  assert (L1 : zlen (past ++ [(x, r)]) = zlen past + 1) by apply zlen_snoc. pose proof (zlen_nonneg past) as Hp.
  destruct IH as (I1 & I2). { intros l t r' E. specialize (HL (Turn x w r w1 :: l) t r'). cbn [app] in HL. rewrite E in HL. specialize (HL eq_refl). rewrite L1. replace (zlen past + 1 + zlen l) with (zlen past + zlen (Turn x w r w1 :: l)) by (unfold zlen; cbn [length]; lia). exact HL. }
  rewrite L1 in *. cbn [fst] in *. 
  assert (K : forall k, 0 <= k < zlen past -> slot m2 (s_arr a) (s_off a + k) = slot (fst w) (s_arr a) (s_off a + k)).
  { intros k Hk. specialize (HL [] (Turn x w r w1) ts eq_refl k). change (zlen (@nil (turn T St T bool))) with 0 in HL. cbn [t_after t_before] in HL. rewrite <- HL by lia. unfold put_new in S. destruct r; [|cbn in S; now subst m2]. destruct S as (_ & _ & So). apply So. intros Q. inversion Q. lia. }
  split.
  - intros k Hk. rewrite I1 by lia. now apply K.
  - intros [|k] t E.
    + inversion E; subst t. cbn [t_result t_after]. rewrite Z.add_0_r. rewrite I1 by lia. unfold put_new in S. destruct r; [now destruct S as (_ & Sv & _)|cbn in S; now subst m2].
    + cbn [nth_error] in E. specialize (I2 k t E). replace (zlen past + Z.of_nat (Datatypes.S k)) with (zlen past + 1 + Z.of_nat k) by lia. exact I2.
Qed.
End Replace.

Lemma harmless_all {T St R} (f : T -> M (world_of T St) R) a put w ts w' : (forall past x r b j v, put past x r = Some (b, j, v) -> b = s_arr a -> j <= s_off a + zlen past) -> harmless f a -> wf_slice (fst w) a ->
  zlen ts = s_len a -> turns f (element a) put [] w ts w' -> map t_arg ts = contents (fst w) a.
Proof.
  intros Hp Hh Hw L Ht. apply zlist_eq_len; [unfold zlen in *; rewrite map_length, L; symmetry; apply zlen_contents; auto|]. intros i Hi.
  assert (Hi' : 0 <= i < zlen ts) by (unfold zlen in *; rewrite map_length in Hi; lia). destruct (zget_range ts i Hi') as [t Et]. pose proof Hw as (_ & Ho & _).
  assert (En : nth_error ts (Z.to_nat i) = Some t) by (unfold zget in Et; replace (i <? 0) with false in Et by lia; exact Et).
  pose proof (harmless_args f a put Hp Hh [] w ts w' Ho Ht _ _ En) as Q. change (zlen (@nil (T * R))) with 0 in Q. replace (0 + Z.of_nat (Z.to_nat i)) with i in Q by lia. rewrite Q. unfold zget. replace (i <? 0) with false by lia. now apply map_nth_error.
Qed.
