(** SkipListSet structs that are copied, from SkipList structs that are. *)
From Verif Require Import Base BaseLemmas Spec Trace Nodes Spec_List Spec_Map Spec_Set Model_SkipList Model_Lookup Proof_SkipList Proof_Map Props_SkipList Model_SkipListSet Props_SkipListSet Proof_Lookup
  Spec_SkipListCopy Model_SkipListCopy Proof_SkipListCopy Spec_SetCopy Model_SetCopy.
Local Arguments zlen : simpl never.

Section Counts.
Context {K : Type}.
Variable lt : K -> K -> bool.
Hypothesis SW : strict_weak lt.
Lemma sw_kind : kind (V := unit) (implFunc (OrderedCompare lt)) lt.
Proof.
  right. exists (OrderedCompare lt). split; [reflexivity|]. split; [now apply OrderedCompare_three_way|].
  intros a b. unfold OrderedCompare. destruct (lt a b); [reflexivity|]. now destruct (lt b a).
Qed.
Lemma count_new_cons k ks m : count_new lt (k :: ks) m = (if mem lt k m then 0 else 1) + count_new lt ks (add lt k m).
Proof. rewrite (count_new_add _ _ sw_kind). cbn [count_new]. destruct (mem lt k m), (mem lt k ks); cbn [orb andb negb]; lia. Qed.
Lemma count_old_cons k ks m : count_old lt (k :: ks) m = (if mem lt k m then 1 else 0) + count_old lt ks (drop lt k m).
Proof. rewrite (count_old_drop _ _ sw_kind). cbn [count_old]. destruct (mem lt k m), (mem lt k ks); cbn [orb andb negb]; lia. Qed.
End Counts.

Section Sets.
Context {K St : Type}.
Variables (zk : K) (ltb eqb : K -> K -> bool).
Notation heap := (list (slnode K unit)).
(** The sets behind maps to struct{}. *)
Definition tof (s : @views K unit) : @zviews K := (map (fun p => (fst p, map fst (snd p))) (fst s), snd s).

Lemma on_var_map {R : Type} i (p : @slimpl K unit -> P (slnode K unit) sklist R) {St'} (mo : mop K unit St') (g : mres K unit St' -> R) w :
  (forall im s, p im s = (omap g (fst (map_step im mo s)), snd (map_step im mo s))) ->
  on_var i p w = (omap g (fst (y_step zk tt ltb eqb (YCall i mo) w)), snd (y_step zk tt ltb eqb (YCall i mo) w)).
Proof.
  intros E. unfold on_var. cbn [y_step]. destruct (nth_error (snd w) i) as [v|]; [|reflexivity]. rewrite E.
  destruct (map_step (impl_of w v) mo (fst w, y_sl v)) as [r [h sl]]. reflexivity.
Qed.
Lemma tof_nth s n : nth_error (fst (tof s)) n = option_map (fun p => (fst p, map fst (snd p))) (nth_error (fst s) n).
Proof. unfold tof. cbn [fst]. now rewrite nth_error_map. Qed.
Definition putv (s : @views K unit) i n (u : view) lt (mm : list (K * unit)) len : @views K unit :=
  (upd n (lt, mm) (fst s), upd i (mkView (v_map u) (v_orig u) len) (snd s)).
Lemma tof_putv s i n u lt mm len : tof (putv s i n u lt mm len) = (upd n (lt, map fst mm) (fst (tof s)), upd i (mkView (v_map u) (v_orig u) len) (snd (tof s))).
Proof. unfold tof, putv. cbn [fst snd]. now rewrite map_upd. Qed.
Lemma putv_same s i n u lt mm : nth_error (snd s) i = Some u -> nth_error (fst s) n = Some (lt, mm) -> putv s i n u lt mm (v_len u) = s.
Proof.
  intros E1 E2. unfold putv. rewrite (upd_same (fst s)) by auto. rewrite (upd_same (snd s)); [now destruct s|]. rewrite E1. now destruct u.
Qed.
Lemma putv_putv s i n u lt mm len lt' mm' len' : putv (putv s i n u lt mm len) i n (mkView (v_map u) (v_orig u) len) lt' mm' len' = putv s i n u lt' mm' len'.
Proof. unfold putv. cbn [fst snd v_map v_orig]. now rewrite !upd_upd. Qed.
Lemma putv_at s i n u lt mm len lt0 mm0 : nth_error (snd s) i = Some u -> nth_error (fst s) n = Some (lt0, mm0) ->
  nth_error (snd (putv s i n u lt mm len)) i = Some (mkView (v_map u) (v_orig u) len) /\ nth_error (fst (putv s i n u lt mm len)) n = Some (lt, mm).
Proof.
  intros E1 E2. unfold putv. cbn [fst snd]. split; apply nth_error_upd_eq; apply nth_error_Some; congruence.
Qed.

(** Where variable i shows the map mm in the order lt. *)
Lemma len_at (w : yvars K unit) (s : @views K unit) (L : list (@lst K unit)) i u n : Inv w s L -> nth_error (snd s) i = Some u -> v_map u = Some n -> exists v, nth_error (snd w) i = Some v /\ sl_len (y_sl v) = v_len u.
Proof.
  intros I E M. destruct (nth_error (snd w) i) as [v|] eqn:Ev.
  - exists v. split; auto. pose proof (i_view _ _ _ I i v u Ev E) as S. unfold sees in S. rewrite M in S. destruct S as (x & _ & _ & _ & _ & S). exact S.
  - pose proof (i_len _ _ _ I) as El. apply nth_error_None in Ev. assert (i < length (snd s))%nat by (apply nth_error_Some; congruence). lia.
Qed.
Lemma weak_at (w : yvars K unit) (s : @views K unit) (L : list (@lst K unit)) n lt mm : Inv w s L -> nth_error (fst s) n = Some (lt, mm) -> strict_weak lt.
Proof.
  intros I E. destruct (F2_nth' _ _ _ (i_maps _ _ _ I) n _ E) as (x & _ & S). destruct S as (_ & _ & _ & eqk & gtk & _ & _ & SW & _). exact SW.
Qed.
Lemma z_Len_at (w : yvars K unit) (s : @views K unit) (L : list (@lst K unit)) i u n : Inv w s L -> nth_error (snd s) i = Some u -> v_map u = Some n -> z_Len i w = (Ok (v_len u), w).
Proof.
  intros I E M. destruct (len_at w s L i u n I E M) as (v & Ev & El). unfold z_Len, on_var. rewrite Ev. unfold set_Len, Len, hget. cbn [fst snd]. rewrite El.
  destruct w as [h vs]. cbn [fst snd] in *. do 2 f_equal. apply upd_same. rewrite Ev. now destruct v.
Qed.
Lemma z_Insert_at (w : yvars K unit) (s : @views K unit) (L : list (@lst K unit)) i u n lt mm k r : Inv w s L -> nth_error (snd s) i = Some u -> v_map u = Some n -> nth_error (fst s) n = Some (lt, mm) ->
  v_orig u = true \/ mem lt k (map fst mm) = true \/ low_draw r = true ->
  exists w' L', z_Insert i k r w = (Ok (negb (mem lt k (map fst mm))), w') /\
    Inv w' (putv s i n u lt (insert lt k tt mm) (v_len u + if mem lt k (map fst mm) then 0 else 1)) L'.
Proof.
  intros I E M En Po. rewrite mem_has in *.
  assert (P1 : polite1 (St := unit) (YCall i (MInsert k tt r)) s) by (intros v n' lt' m' A B C; rewrite E in A; injection A as <-; rewrite M in B; injection B as <-; rewrite En in C; injection C as <- <-; exact Po).
  destruct (step_inv (St := unit) zk tt ltb eqb (YCall i (MInsert k tt r)) w s L Logic.I P1 I) as (R & L' & I').
  cbn [view_spec] in R, I'. rewrite E, M, En in R, I'. cbn [map_spec fst snd next_len] in R, I'. cbn [y_step] in R, I'.
  destruct (len_at w s L i u n I E M) as (v & Ev & El). unfold z_Insert, on_var. rewrite Ev in *. cbn [map_step] in *. unfold show in *. unfold set_Insert, set_Len, Len, hget.
  unfold bind at 1. cbn [fst snd]. unfold bind. destruct (Insert (impl_of w v) k tt r (fst w, y_sl v)) as [r1 [h1 l1]] eqn:Ei. cbn [fst snd omap] in *.
  destruct r1 as [[]| |]; cbn in R; try discriminate R. unfold ret.
  assert (Eq : putv s i n u lt (insert lt k tt mm) (v_len u + if has lt k mm then 0 else 1) = (upd n (lt, insert lt k tt mm) (fst s), upd i (mkView (Some n) (v_orig u) (if has lt k mm then v_len u else v_len u + 1)) (snd s)))
    by (unfold putv; rewrite M; destruct (has lt k mm); rewrite ?Z.add_0_r; reflexivity).
  exists (h1, upd i (mkY l1 (y_impl v)) (snd w)), L'. rewrite Eq. split; [|exact I']. do 2 f_equal.
  destruct (len_at _ _ _ i (mkView (Some n) (v_orig u) (if has lt k mm then v_len u else v_len u + 1)) n I') as (v1 & Ev1 & El1).
  { cbn [snd]. apply nth_error_upd_eq. apply nth_error_Some. congruence. }
  { reflexivity. }
  cbn [snd] in Ev1. rewrite nth_error_upd_eq in Ev1 by (apply nth_error_Some; congruence). injection Ev1 as <-. cbn [y_sl v_len] in El1. rewrite El, El1. destruct (has lt k mm); cbn [negb]; [apply Z.ltb_ge|apply Z.ltb_lt]; lia.
Qed.
Lemma z_Remove_at (w : yvars K unit) (s : @views K unit) (L : list (@lst K unit)) i u n lt mm k : Inv w s L -> nth_error (snd s) i = Some u -> v_map u = Some n -> nth_error (fst s) n = Some (lt, mm) ->
  exists w' L', z_Remove i k w = (Ok (mem lt k (map fst mm)), w') /\
    Inv w' (putv s i n u lt (remove lt k mm) (v_len u - if mem lt k (map fst mm) then 1 else 0)) L'.
Proof.
  intros I E M En. rewrite mem_has in *.
  destruct (step_inv (St := unit) zk tt ltb eqb (YCall i (MRemove k)) w s L Logic.I Logic.I I) as (R & L' & I').
  cbn [view_spec] in R, I'. rewrite E, M, En in R, I'. cbn [map_spec fst snd next_len] in R, I'. cbn [y_step] in R, I'.
  destruct (len_at w s L i u n I E M) as (v & Ev & El). unfold z_Remove, on_var. rewrite Ev in *. cbn [map_step] in *. unfold show in *. unfold set_Remove.
  destruct (Remove (impl_of w v) k (fst w, y_sl v)) as [r1 [h1 l1]] eqn:Ei. cbn [fst snd omap] in *.
  destruct r1 as [b| |]; cbn in R; try discriminate R. injection R as ->.
  exists (h1, upd i (mkY l1 (y_impl v)) (snd w)), L'. split; [reflexivity|]. unfold putv. rewrite M. destruct (has lt k mm); rewrite ?Z.sub_0_r; exact I'.
Qed.
Lemma insert_loop_at i ks : forall (w : yvars K unit) (s : @views K unit) (L : list (@lst K unit)) u n lt mm, Inv w s L -> nth_error (snd s) i = Some u -> v_map u = Some n -> nth_error (fst s) n = Some (lt, mm) ->
  polite_keys lt (v_orig u) ks (map fst mm) ->
  exists w' L' mm', z_insert_loop i ks w = (Ok tt, w') /\ map fst mm' = fold_left (fun m p => add lt (fst p) m) ks (map fst mm) /\
    Inv w' (putv s i n u lt mm' (v_len u + count_new lt (map fst ks) (map fst mm))) L'.
Proof.
  induction ks as [|[k r] ks IH]; intros w s L u n lt mm I E M En Po.
  - exists w, L, mm. split; [reflexivity|]. split; [reflexivity|]. cbn [map count_new]. now rewrite Z.add_0_r, putv_same.
  - destruct Po as [P1 P2]. destruct (z_Insert_at w s L i u n lt mm k r I E M En P1) as (w1 & L1 & E1 & I1). cbn [z_insert_loop]. rewrite (bind_eq _ _ _ _ _ E1).
    destruct (putv_at s i n u lt (insert lt k tt mm) (v_len u + (if mem lt k (map fst mm) then 0 else 1)) lt mm E En) as [A1 A2].
    destruct (IH _ _ _ _ n lt _ I1 A1 M A2) as (w2 & L2 & mm2 & E2 & F2 & I2); [cbn [v_orig]; rewrite add_insert; exact P2|].
    exists w2, L2, mm2. split; [exact E2|]. cbn [fold_left fst map]. rewrite add_insert in *. split; [exact F2|]. rewrite putv_putv in I2. cbn [v_len] in I2.
    rewrite (count_new_cons lt (weak_at _ _ _ _ _ _ I En)), Z.add_assoc. exact I2.
Qed.
Lemma remove_loop_at i ks : forall (w : yvars K unit) (s : @views K unit) (L : list (@lst K unit)) u n lt mm, Inv w s L -> nth_error (snd s) i = Some u -> v_map u = Some n -> nth_error (fst s) n = Some (lt, mm) ->
  exists w' L' mm', z_remove_loop i ks w = (Ok tt, w') /\ map fst mm' = fold_left (fun m k => drop lt k m) ks (map fst mm) /\
    Inv w' (putv s i n u lt mm' (v_len u - count_old lt ks (map fst mm))) L'.
Proof.
  induction ks as [|k ks IH]; intros w s L u n lt mm I E M En.
  - exists w, L, mm. split; [reflexivity|]. split; [reflexivity|]. cbn [count_old]. now rewrite Z.sub_0_r, putv_same.
  - destruct (z_Remove_at w s L i u n lt mm k I E M En) as (w1 & L1 & E1 & I1). cbn [z_remove_loop]. rewrite (bind_eq _ _ _ _ _ E1).
    destruct (putv_at s i n u lt (remove lt k mm) (v_len u - (if mem lt k (map fst mm) then 1 else 0)) lt mm E En) as [A1 A2].
    destruct (IH _ _ _ _ n lt _ I1 A1 M A2) as (w2 & L2 & mm2 & E2 & F2 & I2).
    exists w2, L2, mm2. split; [exact E2|]. cbn [fold_left]. rewrite drop_remove in *. split; [exact F2|]. rewrite putv_putv in I2. cbn [v_len] in I2.
    rewrite (count_old_cons lt (weak_at _ _ _ _ _ _ I En)), Z.sub_add_distr. exact I2.
Qed.

Lemma single {St'} i (o : sop K St) (mo : mop K unit St') (g : mres K unit St' -> sres K St) w s L :
  (forall im x, set_step im o x = (omap g (fst (map_step im mo x)), snd (map_step im mo x))) ->
  (forall lt mm n, z_answer lt o (map fst mm) n = omap g (view_answer lt mo mm n)) ->
  (forall lt mm, snd (set_spec lt o (map fst mm)) = map fst (snd (map_spec lt mo mm))) ->
  (forall lt mm n, z_next_len lt o (map fst mm) n = next_len lt mo mm n) ->
  z_zero_answer o = omap g (zero_answer mo) -> polite1 (YCall i mo) s -> Inv w s L ->
  fst (on_var i (fun im => set_step im o) w) = fst (z_view_spec ltb (ZCall i o) (tof s)) /\
  exists s' L', Inv (snd (on_var i (fun im => set_step im o) w)) s' L' /\ snd (z_view_spec ltb (ZCall i o) (tof s)) = tof s'.
Proof.
  intros H0 H1 H2 H3 H4 Po I. rewrite (on_var_map i (fun im => set_step im o) mo g w H0). cbn [fst snd]. destruct (step_inv zk tt ltb eqb (YCall i mo) w s L Logic.I Po I) as (R & L' & I'). rewrite R. split.
  - cbn [view_spec z_view_spec]. change (snd (tof s)) with (snd s). destruct (nth_error (snd s) i) as [u|]; [|reflexivity]. destruct (v_map u) as [n|]; [|cbn [fst]; now rewrite H4].
    rewrite tof_nth. destruct (nth_error (fst s) n) as [[lt mm]|]; cbn [option_map fst snd]; [|reflexivity]. rewrite H1. unfold view_answer. destruct (map_spec lt mo mm) as [r mm']. cbn [fst]. now destruct mo.
  - exists (snd (view_spec ltb (YCall i mo) s)), L'. split; [exact I'|].
    cbn [view_spec z_view_spec]. change (snd (tof s)) with (snd s). destruct (nth_error (snd s) i) as [u|]; [|reflexivity]. destruct (v_map u) as [n|] eqn:M; [|reflexivity].
    rewrite tof_nth. destruct (nth_error (fst s) n) as [[lt mm]|]; cbn [option_map fst snd]; [|reflexivity]. rewrite H2, H3. destruct (map_spec lt mo mm) as [r mm']. cbn [fst snd]. unfold tof. cbn [fst snd]. now rewrite map_upd.
Qed.
Definition g_of {St'} (f : St' -> sres K St) (r : mres K unit St') : sres K St :=
  match r with MNone => SNone | MBool b => SBool b | MInt n => SInt n | MOpt _ => SNone | MSeq l => SSeq (map fst l) | MSt st => f st end.
Lemma z_call_ok i (o : sop K St) w s L : z_polite1 (ZCall i o) (tof s) -> Inv w s L ->
  fst (z_step zk ltb eqb (ZCall i o) w) = fst (z_view_spec ltb (ZCall i o) (tof s)) /\
  exists s' L', Inv (snd (z_step zk ltb eqb (ZCall i o) w)) s' L' /\ snd (z_view_spec ltb (ZCall i o) (tof s)) = tof s'.
Proof.
  intros Po I.
  assert (At : forall u n lt mm, nth_error (snd s) i = Some u -> v_map u = Some n -> nth_error (fst s) n = Some (lt, mm) -> nth_error (fst (tof s)) n = Some (lt, map fst mm)) by (intros u n lt mm _ _ En; now rewrite tof_nth, En).
  assert (In_ : forall u n, nth_error (snd s) i = Some u -> v_map u = Some n -> exists lt mm, nth_error (fst s) n = Some (lt, mm)).
  { intros u n E M. destruct (len_at w s L i u n I E M) as (v & Ev & _). pose proof (i_view _ _ _ I i v u Ev E) as S. unfold sees in S. rewrite M in S. destruct S as (x & Ex & _).
    destruct (F2_nth _ _ _ (i_maps _ _ _ I) n x Ex) as ([lt mm] & En & _). eauto. }
  assert (No : nth_error (snd s) i = None -> nth_error (snd w) i = None) by (intros E; apply nth_error_None; rewrite (i_len _ _ _ I); now apply nth_error_None).
  assert (Ze : forall u, nth_error (snd s) i = Some u -> v_map u = None -> exists v, nth_error (snd w) i = Some v /\ z_Len i w = (Ok 0, w) /\
    (forall k r, exists w' L', z_Insert i k r w = (Panic, w') /\ Inv w' s L') /\ (forall k, exists w' L', z_Remove i k w = (Panic, w') /\ Inv w' s L')).
  { intros u E M. destruct (nth_error (snd w) i) as [v|] eqn:Ev.
    2:{ apply nth_error_None in Ev. rewrite (i_len _ _ _ I) in Ev. apply nth_error_None in Ev. congruence. }
    exists v. split; auto. pose proof (i_view _ _ _ I i v u Ev E) as S. unfold sees in S. rewrite M in S. destruct S as (_ & Sl & _). split; [|split].
    - unfold z_Len, on_var. rewrite Ev. unfold set_Len, Len, hget. cbn [fst snd]. rewrite Sl. destruct w as [h vs]. cbn [fst snd] in *. do 2 f_equal. apply upd_same. rewrite Ev. now destruct v.
    - intros k r. assert (P1 : polite1 (St := unit) (YCall i (MInsert k tt r)) s) by (intros v' n' lt' m' A B; rewrite E in A; injection A as <-; congruence).
      destruct (step_inv (St := unit) zk tt ltb eqb (YCall i (MInsert k tt r)) w s L Logic.I P1 I) as (R & L' & I').
      cbn [view_spec] in R, I'. rewrite E, M in R, I'. cbn [zero_answer fst snd] in R, I'. cbn [y_step] in R, I'. unfold z_Insert, on_var. rewrite Ev in *. cbn [map_step] in *. unfold show in *. unfold set_Insert, set_Len, Len, hget.
      unfold bind at 1. cbn [fst snd]. unfold bind. destruct (Insert (impl_of w v) k tt r (fst w, y_sl v)) as [r1 [h1 l1]] eqn:Ei. cbn [fst snd omap] in *. destruct r1; cbn in R; try discriminate R. eauto.
    - intros k. destruct (step_inv (St := unit) zk tt ltb eqb (YCall i (MRemove k)) w s L Logic.I Logic.I I) as (R & L' & I').
      cbn [view_spec] in R, I'. rewrite E, M in R, I'. cbn [zero_answer fst snd] in R, I'. cbn [y_step] in R, I'. unfold z_Remove, on_var. rewrite Ev in *. cbn [map_step] in *. unfold show in *. unfold set_Remove.
      destruct (Remove (impl_of w v) k (fst w, y_sl v)) as [r1 [h1 l1]] eqn:Ei. cbn [fst snd omap] in *. destruct r1; cbn in R; try discriminate R. eauto. }
  destruct o.
  - (* Insert *) cbn [z_step set_step]. assert (Eo : on_var i (fun im => show (SBool (K := K) (St := St)) (set_Insert im k r)) w = show SBool (z_Insert i k r) w).
    { unfold z_Insert, on_var, show. destruct (nth_error (snd w) i) as [v|]; [|reflexivity]. now destruct (set_Insert (impl_of w v) k r (fst w, y_sl v)) as [r1 [h1 l1]]. }
    rewrite Eo. unfold show. cbn [z_view_spec]. change (snd (tof s)) with (snd s). destruct (nth_error (snd s) i) as [u|] eqn:E.
    2:{ unfold z_Insert, on_var. rewrite (No eq_refl). cbn. split; eauto. }
    destruct (v_map u) as [n|] eqn:M.
    2:{ destruct (Ze u eq_refl M) as (v & Ev & _ & Zi & _). destruct (Zi k r) as (w' & L' & Ei & I'). rewrite Ei. cbn. eauto. }
    destruct (In_ u n eq_refl M) as (lt & mm & En). rewrite (At u n lt mm eq_refl M En).
    assert (P1 := Po u n lt (map fst mm) E M (At u n lt mm eq_refl M En)). cbn [polite_keys] in P1.
    destruct (z_Insert_at w s L i u n lt mm k r I E M En (proj1 P1)) as (w' & L' & Ei & I'). rewrite Ei. cbn [fst snd omap z_answer set_spec z_next_len]. split; [reflexivity|].
    eexists _, L'. split; [exact I'|]. rewrite tof_putv, add_insert, M. change (snd (tof s)) with (snd s). destruct (mem lt k (map fst mm)); rewrite ?Z.add_0_r; reflexivity.
  - (* InsertN *) cbn [z_step]. unfold show. cbn [z_view_spec]. change (snd (tof s)) with (snd s). unfold z_InsertN. destruct (nth_error (snd s) i) as [u|] eqn:E.
    2:{ unfold z_Len, on_var, bind. rewrite (No eq_refl). cbn. split; eauto. }
    destruct (v_map u) as [n|] eqn:M.
    2:{ destruct (Ze u eq_refl M) as (v & Ev & Zl & Zi & _). rewrite (bind_eq _ _ _ _ _ Zl). destruct ks as [|[k r] ks]; cbn [z_insert_loop z_zero_answer fst snd].
        - rewrite (bind_eq (ret tt) _ _ tt w eq_refl), (bind_eq (z_Len i) (fun n => ret (n - 0)) w 0 w Zl). cbn. eauto.
        - destruct (Zi k r) as (w' & L' & Ei & I'). unfold bind. rewrite Ei. cbn. eauto. }
    destruct (In_ u n eq_refl M) as (lt & mm & En). rewrite (At u n lt mm eq_refl M En).
    assert (P1 := Po u n lt (map fst mm) E M (At u n lt mm eq_refl M En)).
    destruct (insert_loop_at i ks w s L u n lt mm I E M En P1) as (w' & L' & mm' & El & Ef & I'). rewrite (bind_eq _ _ _ _ _ (z_Len_at w s L i u n I E M)), (bind_eq _ _ _ _ _ El).
    destruct (putv_at s i n u lt mm' (v_len u + count_new lt (map fst ks) (map fst mm)) lt mm E En) as [A1 A2].
    rewrite (bind_eq _ _ _ _ _ (z_Len_at _ _ _ i _ n I' A1 M)). cbn [ret omap fst snd v_len z_answer set_spec z_next_len]. split; [do 2 f_equal; lia|].
    eexists _, L'. split; [exact I'|]. rewrite tof_putv, Ef, M. reflexivity.
  - (* Remove *) apply (single i (SRemove k) (MRemove (St := unit) k) (g_of (fun _ => SNone)) w s L); auto; cbn.
    + intros im x. unfold show, set_Remove. destruct (Remove im k x) as [[]]; reflexivity.
    + intros. now rewrite mem_has.
    + intros. symmetry. apply drop_remove.
    + intros. now rewrite mem_has.
  - (* RemoveN *) cbn [z_step]. unfold show. cbn [z_view_spec]. change (snd (tof s)) with (snd s). unfold z_RemoveN. destruct (nth_error (snd s) i) as [u|] eqn:E.
    2:{ unfold z_Len, on_var, bind. rewrite (No eq_refl). cbn. split; eauto. }
    destruct (v_map u) as [n|] eqn:M.
    2:{ destruct (Ze u eq_refl M) as (v & Ev & Zl & _ & Zr). rewrite (bind_eq _ _ _ _ _ Zl). destruct ks as [|k ks]; cbn [z_remove_loop z_zero_answer fst snd].
        - rewrite (bind_eq (ret tt) _ _ tt w eq_refl), (bind_eq (z_Len i) (fun n => ret (0 - n)) w 0 w Zl). cbn. eauto.
        - destruct (Zr k) as (w' & L' & Ei & I'). unfold bind. rewrite Ei. cbn. eauto. }
    destruct (In_ u n eq_refl M) as (lt & mm & En). rewrite (At u n lt mm eq_refl M En).
    destruct (remove_loop_at i ks w s L u n lt mm I E M En) as (w' & L' & mm' & El & Ef & I'). rewrite (bind_eq _ _ _ _ _ (z_Len_at w s L i u n I E M)), (bind_eq _ _ _ _ _ El).
    destruct (putv_at s i n u lt mm' (v_len u - count_old lt ks (map fst mm)) lt mm E En) as [A1 A2].
    rewrite (bind_eq _ _ _ _ _ (z_Len_at _ _ _ i _ n I' A1 M)). cbn [ret omap fst snd v_len z_answer set_spec z_next_len]. split; [do 2 f_equal; lia|].
    eexists _, L'. split; [exact I'|]. rewrite tof_putv, Ef, M. reflexivity.
  - apply (single i SClear (MClear (St := unit)) (g_of (fun _ => SNone)) w s L); auto; cbn. intros im x. unfold show, set_Clear. destruct (Clear x) as [[]]; reflexivity.
  - apply (single i SLen (MLen (St := unit)) (g_of (fun _ => SNone)) w s L); auto; cbn.
  - apply (single i SIsEmpty (MIsEmpty (St := unit)) (g_of (fun _ => SNone)) w s L); auto; cbn.
  - apply (single i (SHas k) (MHas (St := unit) k) (g_of (fun _ => SNone)) w s L); auto; cbn.
    + intros im x. unfold show, set_Has. destruct (Has im k x) as [[]]; reflexivity.
    + intros. now rewrite mem_has.
  - (* Keys *) cbn [z_step set_step z_view_spec]. change (snd (tof s)) with (snd s).
    pose proof (on_var_map i (fun im => ForEach (fun (keys : list K) p => keys ++ [fst p]) []) (MForEach (fun (keys : list K) p => keys ++ [fst p]) []) (fun r => match r with MSt st => st | _ => [] end) w) as Fe.
    specialize (Fe ltac:(intros im x; cbn [map_step]; unfold show; destruct (ForEach _ _ x) as [[]]; reflexivity)).
    destruct (step_inv zk tt ltb eqb (YCall i (MForEach (fun (keys : list K) p => keys ++ [fst p]) [])) w s L Logic.I Logic.I I) as (R & L' & I').
    assert (Ke : forall v len, nth_error (snd w) i = Some v -> sl_len (y_sl v) = len ->
      on_var i (fun im => show (SSeq (K := K) (St := St)) set_Keys) w = if len <? 0 then (Panic, w) else show SSeq (on_var i (fun im => ForEach (fun (keys : list K) p => keys ++ [fst p]) [])) w).
    { intros v len Ev <-. unfold on_var, show. rewrite Ev. unfold set_Keys, set_Len, Len, hget, set_ForEach. unfold bind at 1. cbn [fst snd]. destruct (sl_len (y_sl v) <? 0).
      - unfold panic. cbn. destruct w as [h vs]. cbn [fst snd] in *. do 2 f_equal. apply upd_same. rewrite Ev. now destruct v.
      - now destruct (ForEach _ [] (fst w, y_sl v)) as [r1 [h1 l1]]. }
    destruct (nth_error (snd s) i) as [u|] eqn:E.
    2:{ unfold on_var. rewrite (No eq_refl). cbn. split; eauto. }
    cbn [view_spec] in R, I'. rewrite E in R, I'. destruct (v_map u) as [n|] eqn:M.
    2:{ destruct (Ze u eq_refl M) as (v & Ev & _). pose proof (i_view _ _ _ I i v u Ev E) as S. unfold sees in S. rewrite M in S. destruct S as (_ & Sl & _).
        rewrite (Ke v 0 Ev Sl). cbn [Z.ltb Z.compare]. unfold show. rewrite Fe, R. cbn. split; [reflexivity|]. exists s, L'. split; [exact I'|reflexivity]. }
    destruct (In_ u n eq_refl M) as (lt & mm & En). rewrite (At u n lt mm eq_refl M En). rewrite En in R, I'. cbn [map_spec fst snd next_len] in R, I'.
    destruct (len_at w s L i u n I E M) as (v & Ev & El). rewrite (Ke v _ Ev El). cbn [z_answer z_next_len set_spec fst snd].
    assert (Sm : (upd n (lt, map fst mm) (fst (tof s)), upd i (mkView (Some n) (v_orig u) (v_len u)) (snd s)) = tof s).
    { pose proof (tof_putv s i n u lt mm (v_len u)) as T. rewrite putv_same, M in T by auto. symmetry. exact T. }
    rewrite Sm. destruct (v_len u <? 0); cbn [fst snd]; [eauto|]. unfold show. rewrite Fe, R. cbn [omap fst snd]. rewrite (fold_fst (fun a k => a ++ [k])), fold_snoc. split; [reflexivity|].
    eexists _, L'. split; [exact I'|]. rewrite <- Sm. unfold tof. cbn [fst snd]. now rewrite map_upd.
  - apply (single i (SLower k) (MLower (St := unit) k) (g_of (fun _ => SNone)) w s L); auto; cbn.
    + intros im x. unfold show. rewrite si_walk_walk. change (set_LowerBound im k) with (LowerBound im k). destruct (walk (LowerBound im k) x) as [[]]; reflexivity.
    + intros. now rewrite filter_fst.
  - apply (single i (SUpper k) (MUpper (St := unit) k) (g_of (fun _ => SNone)) w s L); auto; cbn.
    + intros im x. unfold show. rewrite si_walk_walk. change (set_UpperBound im k) with (UpperBound im k). destruct (walk (UpperBound im k) x) as [[]]; reflexivity.
    + intros. now rewrite filter_fst.
  - apply (single i (SRange first last) (MRange (St := unit) first last) (g_of (fun _ => SNone)) w s L); auto; cbn.
    + intros im x. unfold show. rewrite si_walk_walk. change (set_FindRange im first last) with (FindRange im first last). destruct (walk (FindRange im first last) x) as [[]]; reflexivity.
    + intros. rewrite existsb_fst, filter_fst. now destruct (existsb _ mm).
  - apply (single i (SForEach cb st) (MForEach (fun st p => cb st (fst p)) st) (g_of SSt) w s L); auto; cbn.
    + intros im x. unfold show, set_ForEach. destruct (ForEach _ st x) as [[]]; reflexivity.
    + intros. now rewrite fold_fst.
  - apply (single i (SForEachIf cb st) (MForEachIf (fun st p => cb st (fst p)) st) (g_of SSt) w s L); auto; cbn.
    + intros im x. unfold show, set_ForEachIf. destruct (ForEachIf _ st x) as [[]]; reflexivity.
    + intros. now rewrite fold_while_fst.
Qed.
Lemma z_step_ok (o : zop K St) w s L : z_lawful ltb eqb o -> z_polite1 o (tof s) -> Inv w s L ->
  fst (z_step zk ltb eqb o w) = fst (z_view_spec ltb o (tof s)) /\
  exists s' L', Inv (snd (z_step zk ltb eqb o w)) s' L' /\ snd (z_view_spec ltb o (tof s)) = tof s'.
Proof.
  assert (Y : forall (yo : yop K unit unit), lawful ltb eqb yo -> polite1 yo s -> Inv w s L -> match yo with YCall _ _ => False | _ => True end ->
    fst (as_map (St := St) zk ltb eqb yo w) = omap (fun _ => SNone) (fst (view_spec ltb yo s)) /\ exists L', Inv (snd (as_map (St := St) zk ltb eqb yo w)) (snd (view_spec ltb yo s)) L').
  { intros yo La Po I _. destruct (step_inv zk tt ltb eqb yo w s L La Po I) as (R & L' & I'). unfold as_map, show. destruct (y_step zk tt ltb eqb yo w) as [r w']. cbn [fst snd] in *. subst r. eauto. }
  intros La Po I. destruct o as [k| |i|i j|i o]; [| | | |now apply (z_call_ok i o w s L)]; cbn [z_step].
  - destruct (Y (YNew k) ltac:(destruct k; exact La) Logic.I I Logic.I) as (E & L' & I'). rewrite E. split; [reflexivity|]. eexists _, L'. split; [exact I'|].
    cbn [z_view_spec view_spec fst snd]. unfold tof. cbn [fst snd]. now rewrite map_app, map_length.
  - destruct (Y YZero Logic.I Logic.I I Logic.I) as (E & L' & I'). rewrite E. split; [reflexivity|]. eexists _, L'. split; [exact I'|reflexivity].
  - destruct (Y (YCopy i) Logic.I Logic.I I Logic.I) as (E & L' & I'). rewrite E. cbn [z_view_spec view_spec] in *. change (snd (tof s)) with (snd s).
    destruct (nth_error (snd s) i); (split; [reflexivity|]); eexists _, L'; (split; [exact I'|reflexivity]).
  - destruct (Y (YAssign i j) Logic.I Po I Logic.I) as (E & L' & I'). rewrite E. cbn [z_view_spec view_spec] in *. change (snd (tof s)) with (snd s).
    destruct (nth_error (snd s) i), (nth_error (snd s) j); (split; [reflexivity|]); eexists _, L'; (split; [exact I'|reflexivity]).
Qed.
Lemma z_run_ok (ops : list (zop K St)) : forall w s L, Forall (z_lawful ltb eqb) ops -> z_polite ltb ops (tof s) -> Inv w s L ->
  fst (run (z_step zk ltb eqb) ops w) = fst (run (z_view_spec ltb) ops (tof s)).
Proof.
  induction ops as [|o ops IH]; intros w s L La Po I; [reflexivity|]. inversion La as [|? ? La1 La2]; subst. destruct Po as [P1 P2].
  destruct (z_step_ok o w s L La1 P1 I) as (E & s' & L' & I' & T). cbn [run]. destruct (z_step zk ltb eqb o w) as [r w']. destruct (z_view_spec ltb o (tof s)) as [r' t']. cbn [fst snd] in *. subst r' t'.
  specialize (IH w' s' L' La2 P2 I'). destruct (run (z_step zk ltb eqb) ops w'), (run (z_view_spec ltb) ops (tof s')). cbn [fst] in *. congruence.
Qed.
Lemma z_shared_ok (ops : list (zop K St)) : Forall (z_lawful ltb eqb) ops -> z_polite ltb ops ([], []) ->
  fst (run (z_step zk ltb eqb) ops ([], [])) = fst (run (z_view_spec ltb) ops ([], [])).
Proof. intros La Po. exact (z_run_ok ops ([], []) ([], []) [] La Po inv_start). Qed.
End Sets.

(** *** Copies that are only read *)
Section Readers.
Context {K St : Type}.
Section Len.
Variable lt : K -> K -> bool.
Hypothesis SW : strict_weak lt.
Definition pairs (m : list K) : list (K * unit) := map (fun k => (k, tt)) m.
Lemma pairs_fst (mm : list (K * unit)) : pairs (map fst mm) = mm.
Proof using Type. unfold pairs. rewrite map_map. induction mm as [|[k []] mm IH]; cbn; congruence. Qed.
Lemma fst_pairs m : map fst (pairs m) = m.
Proof using Type. unfold pairs. rewrite map_map. apply map_id. Qed.
Lemma add_srt k m : ksorted lt (pairs m) -> ksorted lt (pairs (add lt k m)) /\ zlen (add lt k m) = zlen m + if mem lt k m then 0 else 1.
Proof using SW.
  intros S. pose proof (spec_sorted (St := unit) lt SW (MInsert k tt 0) (pairs m) S) as S1. pose proof (len_spec (St := unit) lt SW (MInsert k tt 0) (pairs m) S) as L1.
  cbn [map_spec snd next_len] in *. rewrite <- (fst_pairs m) at 1. rewrite <- add_insert, pairs_fst. split; [exact S1|].
  rewrite <- (fst_pairs m) at 1 2 3. rewrite <- add_insert, mem_has. unfold zlen in *. rewrite !map_length. destruct (has lt k (pairs m)); lia.
Qed.
Lemma drop_srt k m : ksorted lt (pairs m) -> ksorted lt (pairs (drop lt k m)) /\ zlen (drop lt k m) = zlen m - if mem lt k m then 1 else 0.
Proof using SW.
  intros S. pose proof (spec_sorted (St := unit) lt SW (MRemove k) (pairs m) S) as S1. pose proof (len_spec (St := unit) lt SW (MRemove k) (pairs m) S) as L1.
  cbn [map_spec snd next_len] in *. rewrite <- (fst_pairs m) at 1. rewrite <- drop_remove, pairs_fst. split; [exact S1|].
  rewrite <- (fst_pairs m) at 1 2 3. rewrite <- drop_remove, mem_has. unfold zlen in *. rewrite !map_length. destruct (has lt k (pairs m)); lia.
Qed.
Lemma set_srt (o : sop K St) m : ksorted lt (pairs m) -> ksorted lt (pairs (snd (set_spec lt o m))) /\ zlen (snd (set_spec lt o m)) = z_next_len lt o m (zlen m).
Proof using SW.
  intros S. destruct o; cbn [set_spec snd z_next_len]; auto.
  - destruct (add_srt k m S) as [S1 L1]. split; auto. rewrite L1. destruct (mem lt k m); lia.
  - revert m S. induction ks as [|[k r] ks IH]; intros m S; cbn [fold_left fst map count_new]; [split; auto; lia|].
    destruct (add_srt k m S) as [S1 L1]. destruct (IH _ S1) as [S2 L2]. split; auto. rewrite L2, L1. pose proof (count_new_cons lt SW k (map fst ks) m) as C. cbn [count_new] in C. lia.
  - destruct (drop_srt k m S) as [S1 L1]. split; auto. rewrite L1. destruct (mem lt k m); lia.
  - revert m S. induction ks as [|k ks IH]; intros m S; cbn [fold_left count_old]; [split; auto; lia|].
    destruct (drop_srt k m S) as [S1 L1]. destruct (IH _ S1) as [S2 L2]. split; auto. rewrite L2, L1. pose proof (count_old_cons lt SW k ks m) as C. cbn [count_old] in C. lia.
  - split; [constructor|reflexivity].
Qed.
End Len.
Variables ltb eqb : K -> K -> bool.
Record ZJ (s : @zviews K) (w : list ((K -> K -> bool) * list K) * list (option nat)) : Prop := mkZJ {
  zj_maps : fst w = fst s;
  zj_vars : snd w = map v_map (snd s);
  zj_sorted : forall n lt m, nth_error (fst s) n = Some (lt, m) -> strict_weak lt /\ ksorted lt (pairs m);
  zj_one : forall i j u u', nth_error (snd s) i = Some u -> nth_error (snd s) j = Some u' -> v_orig u = true -> v_orig u' = true -> v_map u = v_map u' -> i = j;
  zj_in : forall i u n, nth_error (snd s) i = Some u -> v_map u = Some n -> (n < length (fst s))%nat;
  zj_len : forall i u n lt m, nth_error (snd s) i = Some u -> v_orig u = true -> v_map u = Some n -> nth_error (fst s) n = Some (lt, m) -> v_len u = zlen m }.
Lemma ZJ_new i b n s w u : ZJ s w -> nth_error (snd s) i = Some u -> b = mkView (v_map u) false n -> ZJ (fst s, snd s ++ [b]) (fst w, snd w ++ [v_map u]).
Proof.
  intros [] E ->. constructor; cbn [fst snd]; auto.
  - now rewrite map_app, <- zj_vars0.
  - intros p q x y E1 E2 O1 O2 M. apply nth_snoc_inv in E1 as [[-> ->]|[_ E1]], E2 as [[-> ->]|[_ E2]]; try discriminate; eauto.
  - intros p x q E1 M. apply nth_snoc_inv in E1 as [[-> ->]|[_ E1]]; eauto.
  - intros p x q lt m E1 O M. apply nth_snoc_inv in E1 as [[-> ->]|[_ E1]]; [discriminate|eauto].
Qed.
Lemma all_polite lt ks : forall m : list K, polite_keys lt true ks m.
Proof. induction ks as [|[k r] ks IH]; intros m; cbn; auto. Qed.
Lemma zread_step (o : zop K St) s w : z_lawful ltb eqb o -> z_reading1 o s -> ZJ s w ->
  z_polite1 o s /\ fst (z_view_spec ltb o s) = fst (z_alias_spec ltb o w) /\ ZJ (snd (z_view_spec ltb o s)) (snd (z_alias_spec ltb o w)).
Proof.
  intros La Rd Jj. pose proof Jj as []. destruct s as [ms us], w as [ms' xs]. cbn [fst snd] in *. subst ms' xs. destruct o as [k| |i|i j|i o]; cbn [z_view_spec z_alias_spec z_polite1 fst snd].
  - split; auto. split; auto. constructor; cbn [fst snd].
    + reflexivity.
    + now rewrite map_app.
    + intros n lt m E. apply nth_snoc_inv in E as [[-> E]|[_ E]]; [|eauto]. injection E as -> ->. split; [|constructor]. apply (ylt_weak (V := unit) (St := unit) ltb eqb k). destruct k; exact La.
    + intros p q x y E1 E2 O1 O2 M. apply nth_snoc_inv in E1 as [[-> ->]|[_ E1]], E2 as [[-> ->]|[_ E2]]; eauto.
      * cbn in M. symmetry in M. apply (zj_in0 _ _ _ E2) in M. lia.
      * cbn in M. apply (zj_in0 _ _ _ E1) in M. lia.
    + intros p x q E1 M. rewrite app_length. cbn. apply nth_snoc_inv in E1 as [[-> ->]|[_ E1]]; [injection M as <-; lia|]. apply (zj_in0 _ _ _ E1) in M. lia.
    + intros p x q lt m E1 O M E. apply nth_snoc_inv in E1 as [[-> ->]|[_ E1]].
      * injection M as <-. rewrite nth_snoc_new in E. injection E as <- <-. reflexivity.
      * pose proof (zj_in0 _ _ _ E1 M). rewrite nth_error_app1 in E by auto. eauto.
  - split; auto. split; auto. constructor; cbn [fst snd]; auto.
    + now rewrite map_app.
    + intros p q x y E1 E2 O1 O2 M. apply nth_snoc_inv in E1 as [[-> ->]|[_ E1]], E2 as [[-> ->]|[_ E2]]; try discriminate; eauto.
    + intros p x q E1 M. apply nth_snoc_inv in E1 as [[-> ->]|[_ E1]]; [discriminate|eauto].
    + intros p x q lt m E1 O M. apply nth_snoc_inv in E1 as [[-> ->]|[_ E1]]; [discriminate|eauto].
  - split; auto. rewrite nth_error_map. destruct (nth_error us i) as [u|] eqn:E; cbn; [|auto]. split; auto. exact (ZJ_new i _ (v_len u) (ms, us) (ms, map v_map us) u Jj E eq_refl).
  - split; [exact Rd|]. rewrite !nth_error_map. cbn in Rd. destruct (nth_error us i) as [ui|] eqn:Ei; cbn; [|auto]. destruct (nth_error us j) as [u|] eqn:E; cbn; [|auto]. split; auto.
    specialize (Rd ui eq_refl). constructor; cbn [fst snd]; auto.
    + now rewrite map_upd.
    + intros p q x y E1 E2 O1 O2 M. apply nth_upd_inv in E1 as [(-> & -> & _)|(_ & E1)], E2 as [(-> & -> & _)|(_ & E2)]; try discriminate; eauto.
    + intros p x q E1 M. apply nth_upd_inv in E1 as [(-> & -> & _)|(_ & E1)]; eauto.
    + intros p x q lt m E1 O M. apply nth_upd_inv in E1 as [(-> & -> & _)|(_ & E1)]; [discriminate|eauto].
  - rewrite nth_error_map. destruct (nth_error us i) as [u|] eqn:E; cbn [option_map].
    2:{ split; [|cbn; auto]. destruct o; auto; intros v0 n lt m C; discriminate. }
    destruct (v_map u) as [n|] eqn:M.
    2:{ split; [|cbn; auto]. destruct o; auto; intros v0 n lt m C; injection C as <-; congruence. }
    destruct (nth_error ms n) as [[lt m]|] eqn:En.
    2:{ split; [|cbn; auto]. destruct o; auto; intros v0 n' lt m C M' C'; injection C as <-; congruence. }
    destruct (zj_sorted0 n lt m En) as [SW So]. destruct (set_srt lt SW o m So) as [So' Ln].
    assert (Or : match o with SInsert _ _ | SInsertN _ | SRemove _ | SRemoveN _ | SClear | SLen | SIsEmpty | SKeys => v_orig u = true | _ => True end).
    { destruct o; auto; cbn in Rd; destruct (Rd u E) as [X|X]; congruence. }
    split; [destruct o; auto; intros v0 n' lt' m'' C; injection C as <-; intros _ _; rewrite Or; apply all_polite|].
    assert (An : z_answer lt o m (v_len u) = fst (set_spec lt o m)).
    { destruct o; try reflexivity; cbn [z_answer set_spec fst]; rewrite (zj_len0 _ _ _ _ _ E Or M En); auto; [now destruct m|]. destruct (zlen m <? 0) eqn:Eneg; [|reflexivity]. unfold zlen in Eneg. lia. }
    destruct (set_spec lt o m) as [r m'] eqn:Ems. cbn [fst snd] in *. split; [exact An|]. clear An.
    constructor; cbn [fst snd].
    + reflexivity.
    + rewrite map_upd. cbn [v_map]. symmetry. apply upd_same. rewrite nth_error_map, E. cbn. now rewrite M.
    + intros q lt2 m2 E2. apply nth_upd_inv in E2 as [(-> & E2 & _)|(_ & E2)]; [injection E2 as -> ->; auto|eauto].
    + intros p q x y E1 E2 O1 O2 Mm. apply nth_upd_inv in E1 as [(-> & -> & _)|(_ & E1)], E2 as [(-> & -> & _)|(_ & E2)]; auto; cbn in *.
      * apply (zj_one0 i q u y); auto. congruence.
      * apply (zj_one0 p i x u); auto. congruence.
      * eauto.
    + intros p x q E1 Mm. rewrite upd_length. apply nth_upd_inv in E1 as [(-> & -> & _)|(_ & E1)]; [|eauto]. cbn in Mm. injection Mm as <-. apply Proof_Nodes.nth_lt in En. exact En.
    + intros p x q lt2 m2 E1 O Mm E2. apply nth_upd_inv in E1 as [(-> & -> & _)|(NE & E1)].
      * cbn in *. injection Mm as <-. rewrite nth_error_upd_eq in E2 by (now apply Proof_Nodes.nth_lt in En). injection E2 as <- <-. rewrite Ln. f_equal. eauto.
      * apply nth_upd_inv in E2 as [(-> & E2 & _)|(NE2 & E2)]; [|eauto]. injection E2 as <- <-. rewrite Ln, (zj_len0 _ _ _ _ _ E1 O Mm En).
        destruct o; auto; exfalso; apply NE; apply (zj_one0 p i x u); auto; congruence.
Qed.
Lemma zread_run (ops : list (zop K St)) : forall s w, Forall (z_lawful ltb eqb) ops -> z_reading ltb ops s -> ZJ s w ->
  z_polite ltb ops s /\ fst (run (z_view_spec ltb) ops s) = fst (run (z_alias_spec ltb) ops w).
Proof.
  induction ops as [|o ops IH]; intros s w La Rd Jj; [cbn; auto|]. inversion La as [|? ? La1 La2]; subst. destruct Rd as [R1 R2].
  destruct (zread_step o s w La1 R1 Jj) as (P1 & E & Jj'). destruct (IH _ _ La2 R2 Jj') as (P2 & E2). split; [split; auto|].
  cbn [run]. destruct (z_view_spec ltb o s) as [r1 s1]. destruct (z_alias_spec ltb o w) as [r2 w1]. cbn [fst snd] in *. subst r2.
  destruct (run (z_view_spec ltb) ops s1), (run (z_alias_spec ltb) ops w1). cbn [fst] in *. congruence.
Qed.
Lemma ZJ_start : ZJ ([], []) ([], []).
Proof. constructor; cbn; auto; intros [|n]; intros *; intros E; discriminate. Qed.
End Readers.
