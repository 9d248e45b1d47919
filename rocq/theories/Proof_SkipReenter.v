(** Proofs about ForEach with callbacks that use the list. *)
From Coq Require Import Sorted.
From Verif Require Import BaseLemmas Spec Trace Spec_List Spec_Map Nodes Proof_Nodes Model_SkipList Proof_SkipList Proof_Map Proof_SkipListAny Spec_Client Spec_SkipIter Model_SkipIter Proof_SkipIter Proof_SkipStale Props_SkipList Props_SkipIter Spec_SkipReenter Model_SkipReenter.
Set Default Proof Using "Type".
Local Arguments zlen : simpl never. Local Arguments pload : simpl never.

Lemma NoDup_map_filter {A B} (f : A -> B) P l : NoDup (map f l) -> NoDup (map f (filter P l)).
Proof.
  induction l as [|x l IH]; cbn; auto. intros N. inversion N as [|? ? Nx Nl]; subst. destruct (P x); cbn; auto. constructor; auto. intros I. apply Nx. apply in_map_iff in I as (y & E & I). apply filter_In in I as [I _]. rewrite <- E. now apply in_map.
Qed.
(** A variable in front that the statements do not name. *)
Definition shift {K V St} (o : xop K V St) : xop K V St :=
  match o with
  | XPointer x => XPointer (S x) | XIsNotEnd x => XIsNotEnd (S x) | XMoveToNext x => XMoveToNext (S x)
  | XKey x => XKey (S x) | XValue x => XValue (S x) | XStore x v => XStore (S x) v | _ => o
  end.
Definition hide {A S T} (h : T) (x : outcome A * (S * list T)) : outcome A * (S * list T) := (fst x, (fst (snd x), h :: snd (snd x))).
Section Sim.
Context {K V S0 : Type}.
Variables (impl : @slimpl K V) (lt : K -> K -> bool).
Hypothesis Hk : kind impl lt.
Notation estate := (estate K V).
Notation CS := ((list (slnode K V) * sklist) * list iter)%type.
Notation SS := (estate * list xvar)%type.
Implicit Types (e : estate) (o : xop K V S0).

Lemma shift_spec o e h vars : x_spec lt (shift o) (e, h :: vars) = hide h (x_spec lt o (e, vars)).
Proof.
  unfold hide. destruct o; cbn; auto; unfold at_element; destruct (nth_error vars x) as [[[i|] en]|]; cbn; auto.
  - destruct (next_of i e); reflexivity.
  - destruct (pair_of i e); reflexivity.
  - destruct (pair_of i e); reflexivity.
Qed.
Lemma bind_var_hide {A} (p : P (slnode K V) sklist iter) (c : list (slnode K V) * sklist) h vars : bind_var (St := A) p (c, h :: vars) = hide h (bind_var p (c, vars)).
Proof. unfold bind_var, hide. cbn [fst snd]. destruct (p c) as [[it| |] s]; reflexivity. Qed.
Lemma with_vars_hide {A B} (f : A -> xres K V B) (p : P (slnode K V) sklist A) (c : list (slnode K V) * sklist) h vars : with_vars f p (c, h :: vars) = hide h (with_vars f p (c, vars)).
Proof. unfold with_vars, hide. cbn [fst snd]. destruct (p c) as [r s]; reflexivity. Qed.
Lemma shift_step o (c : list (slnode K V) * sklist) h vars : x_step impl (shift o) (c, h :: vars) = hide h (x_step impl o (c, vars)).
Proof.
  destruct o; cbn [x_step shift fst snd]; try apply bind_var_hide; try (cbn [nth_error]; destruct (nth_error vars x) as [it|]; [|reflexivity]); try apply bind_var_hide; try apply with_vars_hide.
  - reflexivity.
  - unfold move_var, hide. cbn [fst snd]. destruct (MoveToNext it c) as [[it'| |] s]; reflexivity.
Qed.

(** Every state the body passes through. *)
Record moves e e' : Prop := mkMoves {
  m_stay : incl (map (fun g => fst (fst g)) (e_gone e)) (map (fun g => fst (fst g)) (e_gone e'));
  m_gone : forall g, In g (e_gone e') ->
    (exists g0, In g0 (e_gone e) /\ fst (fst g0) = fst (fst g) /\ key (fst g0) = key (fst g) /\ snd g0 = snd g) \/
    (exists L x R, e_live e = L ++ x :: R /\ fst x = fst (fst g) /\ key x = key (fst g) /\ snd g = first_id R) }.
Lemma moves_same e e' : e_gone e' = e_gone e -> moves e e'.
Proof. intros E. constructor; rewrite E; [apply incl_refl|]. intros g I. left. exists g. auto. Qed.
Lemma moves_retire p e : moves e (retire p e).
Proof.
  constructor; cbn [retire e_gone].
  - rewrite map_app. apply incl_appr, incl_refl.
  - intros g I. apply in_app_iff in I as [I|I].
    + apply leaving_in in I as (L & R & El & En). right. exists L, (fst g), R. auto.
    + left. exists g. auto.
Qed.
Lemma spec_moves o (st : SS) : moves (fst st) (fst (snd (x_spec lt o st))).
Proof.
  destruct st as [e vars]. cbn [fst]. destruct o; cbn [x_spec snd fst declare]; try (now apply moves_same); try (destruct (nth_error vars x) as [[[i|] en]|]; cbn [fst snd at_element declare]; try (now apply moves_same)).
  - unfold calls. destruct o; cbn zeta; try (now apply moves_same); try apply moves_retire. destruct (has lt k _); now apply moves_same.
  - destruct (next_of i e); now apply moves_same.
  - destruct (pair_of i e); now apply moves_same.
  - destruct (pair_of i e); now apply moves_same.
  - constructor; cbn [store e_gone].
    + rewrite map_map. intros j I. apply in_map_iff in I as (g & <- & I). apply in_map_iff. exists g. split; auto. cbn [fst]. now destruct (write_key i v (fst g)) as [-> _].
    + intros g I. apply in_map_iff in I as (g0 & <- & I). left. exists g0. cbn [fst snd]. destruct (write_key i v (fst g0)) as [-> ->]. auto.
Qed.
Inductive reach (Q : xop K V S0 -> Prop) : estate -> estate -> Prop :=
| reach_refl e : reach Q e e
| reach_step o e e1 e2 : Q o -> wf lt e -> wf lt e1 -> grows lt o e e1 -> moves e e1 -> reach Q e1 e2 -> reach Q e e2.
Lemma reach_inv Q (P : estate -> Prop) e e' : reach Q e e' -> P e -> (forall o e e1, Q o -> wf lt e -> wf lt e1 -> grows lt o e e1 -> moves e e1 -> P e -> P e1) -> P e'.
Proof. intros R. induction R; auto. intros HP Hs. apply IHR; [|exact Hs]. now apply (Hs o e e1). Qed.
Lemma reach_keyed Q e e' : reach Q e e' -> incl (keyed e) (keyed e').
Proof. intros R. apply (reach_inv Q (fun e1 => incl (keyed e) (keyed e1)) e e' R); [apply incl_refl|]. intros o a b _ _ _ G _ I x Ix. apply (g_old _ _ _ _ G). auto. Qed.

Lemma exec_ok {A} Q (p : xprog K V S0 A) : forall e h vars c ch cvars, only Q p -> XRel lt (e, h :: vars) (c, ch :: cvars) -> forward lt e ->
  exists r e' vars' c' cvars', exec (x_spec lt) p (e, vars) = (r, (e', vars')) /\ exec (x_step impl) p (c, cvars) = (r, (c', cvars')) /\ XRel lt (e', h :: vars') (c', ch :: cvars') /\ forward lt e' /\ reach Q e e' /\ r <> NoFuel.
Proof using Hk.
  induction p as [a|o rest IH]; intros e h vars c ch cvars On R F; cbn [exec].
  - exists (Ok a), e, vars, c, cvars. repeat (split; [solve [auto]|]). split; [constructor|discriminate].
  - inversion On as [|? ? Qo On']; subst. destruct (xstep impl lt Hk (shift o) _ _ R) as [Eq R1]. rewrite shift_spec, shift_step in *. unfold hide in Eq, R1. cbn [fst snd] in Eq, R1.
    destruct (spec_forward lt (kind_sw _ _ Hk) o (e, vars) (XRel_wf _ _ _ R) F) as [G F1]. pose proof (spec_moves o (e, vars)) as Mv. pose proof (XRel_wf _ _ _ R) as W. pose proof (XRel_wf _ _ _ R1) as W1.
    assert (Nf : fst (x_spec lt o (e, vars)) <> NoFuel).
    { clear. destruct o; cbn; try discriminate; try (destruct (nth_error vars x) as [[[i|] en]|]; cbn; try discriminate).
      - destruct o; cbn; try discriminate.
        + destruct (existsb _ _); discriminate.
        + destruct (map_st _ _ _); discriminate.
        + destruct (map_while _ _ _); discriminate.
      - destruct (next_of i e); discriminate.
      - destruct (pair_of i e); discriminate.
      - destruct (pair_of i e); discriminate. }
    cbn [fst] in W, W1, F1, G, Mv. destruct (x_spec lt o (e, vars)) as [r1 [e1 vars1]], (x_step impl o (c, cvars)) as [r2 [c1 cvars1]]. cbn [fst snd] in *. subst r2. destruct r1 as [a| |]; [|exists Panic, e1, vars1, c1, cvars1|contradiction].
    + destruct (IH a e1 h vars1 c1 ch cvars1 (On' a) R1 F1) as (r & e2 & vars2 & c2 & cvars2 & -> & -> & R2 & F2 & Rc & Nr). exists r, e2, vars2, c2, cvars2. repeat (split; [solve [auto]|]). split; [|auto]. econstructor; eauto.
    + repeat (split; [solve [auto]|]). split; [|discriminate]. eapply reach_step; eauto. constructor.
Qed.

(** The cursor of the loop is the hidden variable. *)
Lemma XRel_drop e h vars (c : list (slnode K V) * sklist) ch cvars : XRel lt (e, h :: vars) (c, ch :: cvars) -> XRel lt (e, vars) (c, cvars).
Proof. intros (f & fr & hd & ps & X & Ev & F). cbn in *. injection Ev as _ Ev. inversion F; subst. exists f, fr, hd, ps. auto. Qed.
Lemma XRel_nil e q en vars (c : list (slnode K V) * sklist) p ep cvars : XRel lt (e, (q, en) :: vars) (c, (p, ep) :: cvars) -> is_nil p = match q with None => true | Some _ => false end.
Proof. intros (f & fr & hd & ps & X & Ev & F). cbn in *. injection Ev as -> _. now destruct q. Qed.
Lemma cursor_key e i vars (c : list (slnode K V) * sklist) p cvars : XRel lt (e, (Some i, None) :: vars) (c, (p, None) :: cvars) ->
  exists k v, pair_of i e = Some (k, v) /\ In (i, k) (keyed e) /\ ld_key p c = (Ok k, c) /\ ld_value p c = (Ok v, c).
Proof.
  destruct c as [h l]. intros (f & fr & hd & ps & X & Ev & F). cbn [fst snd] in *. injection Ev as -> _. inversion F as [|? ? [Fi _] _]; subst. specialize (Fi i eq_refl). destruct (id_node lt _ _ _ _ _ _ _ i X Fi) as ([k v] & q & n & Ep & _ & Nd & _).
  exists k, v. split; auto. split; [|cbn [option_map fst snd] in *; split; [apply (ld_key_ok _ _ _ _ _ _ Nd)|apply (ld_value_ok _ _ _ _ _ _ Nd)]].
  apply in_keyed. exists v. unfold pair_of, find_id in Ep. destruct (find _ _) as [[i' p]|] eqn:Ef; [|discriminate]. cbn in Ep. injection Ep as ->. apply find_some in Ef as [If E]. cbn in E. apply Nat.eqb_eq in E. subst i'. exact If.
Qed.
Lemma cursor_next e i vars (c : list (slnode K V) * sklist) p cvars : XRel lt (e, (Some i, None) :: vars) (c, (p, None) :: cvars) ->
  exists q p', next_of i e = Some q /\ ld_next p 0 c = (Ok p', c) /\ XRel lt (e, (q, None) :: vars) (c, (p', None) :: cvars).
Proof.
  destruct c as [h l]. intros (f & fr & hd & ps & X & Ev & F). cbn [fst snd] in *. injection Ev as -> ->. inversion F as [|? ? [Fi _] Fv]; subst. specialize (Fi i eq_refl). destruct (id_node lt _ _ _ _ _ _ _ i X Fi) as ([k v] & q & n & Ep & Eq & Nd & Nx & Bd).
  exists q, (option_map f q). split; auto. cbn [option_map]. split; [apply (ld_next_ok _ _ _ _ _ Nx)|]. exists f, fr, hd, ps. split; auto. split; [reflexivity|]. constructor; auto. split; [exact Bd|apply okid_none].
Qed.
Lemma cursor_first e vars (c : list (slnode K V) * sklist) cvars : XRel lt (e, vars) (c, cvars) ->
  exists hd p, sl_head (snd c) = Some hd /\ ld_next (Some hd) 0 c = (Ok p, c) /\ XRel lt (e, (first_id (e_live e), None) :: vars) (c, (p, None) :: cvars).
Proof.
  destruct c as [h l]. intros (f & fr & hd & ps & X & Ev & F). cbn [fst snd] in *. pose proof (x_rep _ _ _ _ _ _ _ X) as R. pose proof (iterate_ok fr hd ps h l R) as It. unfold Iterate in It.
  exists hd, (firstp ps). assert (Hd : sl_head l = Some hd) by apply R. split; auto. split.
  - unfold bind, hget in It. cbn [fst snd] in It. rewrite Hd in It. destruct (ld_next (Some hd) 0 (h, l)) as [[p| |] s]; cbn in It; try discriminate. injection It as -> ->. reflexivity.
  - exists f, fr, hd, ps. split; auto. cbn [fst snd map tr option_map]. rewrite (cc_first f ps (e_live e)) by apply X. subst cvars. split; [reflexivity|]. constructor; auto. split; [|apply okid_none]. eapply okid_first; [eauto|apply incl_refl].
Qed.

(** ** The loop *)
Section Loop.
Context {A St : Type}.
Variables (give : nat -> M SS A) (pass : ptr -> M CS A).
(** Passing the argument: same result, no change but a new variable. *)
Definition passes : Prop := forall i e vars c p cvars, XRel lt (e, (Some i, None) :: vars) (c, (p, None) :: cvars) ->
  exists a vars' cvars', give i (e, vars) = (Ok a, (e, vars')) /\ pass p (c, cvars) = (Ok a, (c, cvars')) /\ XRel lt (e, (Some i, None) :: vars') (c, (p, None) :: cvars').
Hypothesis Hp : passes.
Variable op : St -> K -> A -> xprog K V S0 (bool * St).
Variable Q : xop K V S0 -> Prop.
Hypothesis HQ : forall st k a, only Q (op st k a).
(** One round. *)
Lemma round q st e vars c p cvars fuel : XRel lt (e, (q, None) :: vars) (c, (p, None) :: cvars) -> forward lt e ->
  match q with
  | None => each_spec lt give op (S fuel) q st (e, vars) = (Ok st, (e, vars)) /\ each impl pass op (S fuel) p st (c, cvars) = (Ok st, (c, cvars))
  | Some i => exists k v a vars1 r e' vars' c' cvars', pair_of i e = Some (k, v) /\ In (i, k) (keyed e) /\ give i (e, vars) = (Ok a, (e, vars1)) /\ exec (x_spec lt) (op st k a) (e, vars1) = (r, (e', vars')) /\ reach Q e e' /\ forward lt e' /\
      match r with
      | Ok (true, st') => exists q' p', next_of i e' = Some q' /\ XRel lt (e', (q', None) :: vars') (c', (p', None) :: cvars') /\
          each_spec lt give op (S fuel) q st (e, vars) = each_spec lt give op fuel q' st' (e', vars') /\ each impl pass op (S fuel) p st (c, cvars) = each impl pass op fuel p' st' (c', cvars')
      | Ok (false, st') => XRel lt (e', vars') (c', cvars') /\ each_spec lt give op (S fuel) q st (e, vars) = (Ok st', (e', vars')) /\ each impl pass op (S fuel) p st (c, cvars) = (Ok st', (c', cvars'))
      | Panic => XRel lt (e', vars') (c', cvars') /\ each_spec lt give op (S fuel) q st (e, vars) = (Panic, (e', vars')) /\ each impl pass op (S fuel) p st (c, cvars) = (Panic, (c', cvars'))
      | NoFuel => False
      end
  end.
Proof using Hk Hp HQ.
  intros R F. pose proof (XRel_nil _ _ _ _ _ _ _ _ R) as En. destruct q as [i|]; [|cbn [each_spec each]; rewrite En; split; reflexivity].
  destruct (cursor_key _ _ _ _ _ _ R) as (k & v & Ep & Ik & Lk & Lv). destruct (Hp _ _ _ _ _ _ R) as (a & vars1 & cvars1 & Ea & Ea' & R1).
  destruct (exec_ok Q (op st k a) _ _ _ _ _ _ (HQ st k a) R1 F) as (r & e' & vars' & c' & cvars' & Ex & Ex' & R2 & F2 & Rc & Nr).
  exists k, v, a, vars1, r, e', vars', c', cvars'. split; auto. split; auto. split; auto. split; auto. split; auto. split; auto.
  assert (S1 : forall B (g : K -> M SS B), (k <- (fun s => (match pair_of i (fst s) with Some p => Ok (fst p) | None => Panic end, s)) ;; g k) (e, vars) = g k (e, vars)). { intros B g. unfold bind. cbn [fst]. rewrite Ep. reflexivity. }
  assert (Es : each_spec lt give op (S fuel) (Some i) st (e, vars) = (r <- exec (x_spec lt) (op st k a) ;; if fst r then q' <- (fun s => (match next_of i (fst s) with Some n => Ok n | None => Panic end, s)) ;; each_spec lt give op fuel q' (snd r) else ret (snd r)) (e, vars1)).
  { cbn [each_spec]. etransitivity; [apply S1|]. etransitivity; [apply (bind_eq _ _ _ _ _ Ea)|reflexivity]. }
  assert (S2 : forall B (g : K -> M CS B), (k <- lift (ld_key p) ;; g k) (c, cvars) = g k (c, cvars)). { intros B g. unfold bind, lift. cbn [fst snd]. rewrite Lk. reflexivity. }
  assert (Ec : each impl pass op (S fuel) p st (c, cvars) = (r <- exec (x_step impl) (op st k a) ;; if fst r then e' <- lift (ld_next p 0) ;; each impl pass op fuel e' (snd r) else ret (snd r)) (c, cvars1)).
  { cbn [each]. rewrite En. etransitivity; [apply S2|]. etransitivity; [apply (bind_eq _ _ _ _ _ Ea')|reflexivity]. }
  destruct r as [[[|] st']| |]; [| | |now destruct Nr].
  - destruct (cursor_next _ _ _ _ _ _ R2) as (q' & p' & En' & Ln & R3). exists q', p'. split; auto. split; auto.
    rewrite Es, Ec, (bind_eq _ _ _ _ _ Ex), (bind_eq _ _ _ _ _ Ex'). cbn [fst snd]. split; [unfold bind; cbn [fst]; now rewrite En'|]. erewrite bind_eq; [reflexivity|]. unfold lift. cbn [fst snd]. rewrite Ln. reflexivity.
  - rewrite Es, Ec, (bind_eq _ _ _ _ _ Ex), (bind_eq _ _ _ _ _ Ex'). cbn [fst snd]. split; [eapply XRel_drop; eauto|]. split; reflexivity.
  - rewrite Es, Ec. unfold bind. rewrite Ex, Ex'. split; [eapply XRel_drop; eauto|]. split; reflexivity.
Qed.
Lemma each_ok fuel : forall q st e vars c p cvars, XRel lt (e, (q, None) :: vars) (c, (p, None) :: cvars) -> forward lt e ->
  exists r e' vars' c' cvars', each_spec lt give op fuel q st (e, vars) = (r, (e', vars')) /\ each impl pass op fuel p st (c, cvars) = (r, (c', cvars')) /\ XRel lt (e', vars') (c', cvars').
Proof using Hk Hp HQ.
  induction fuel as [|fuel IH]; intros q st e vars c p cvars R F.
  - exists NoFuel, e, vars, c, cvars. split; [reflexivity|]. split; [reflexivity|]. eapply XRel_drop; eauto.
  - pose proof (round q st e vars c p cvars fuel R F) as Rd. destruct q as [i|].
    + destruct Rd as (k & v & a & vars1 & r & e' & vars' & c' & cvars' & _ & _ & _ & _ & _ & F' & Rd). destruct r as [[[|] st']| |]; [| | |contradiction].
      * destruct Rd as (q' & p' & _ & R' & -> & ->). apply IH; auto.
      * destruct Rd as (R' & -> & ->). eauto 10.
      * destruct Rd as (R' & -> & ->). exists Panic, e', vars', c', cvars'. auto.
    + destruct Rd as [-> ->]. exists (Ok st), e, vars, c, cvars. split; auto. split; auto. eapply XRel_drop; eauto.
Qed.
(** It ends when nothing is inserted. *)
Lemma each_ends fuel : (forall o k, Q o -> ~ inserts o k) -> forall q st e vars c p cvars, XRel lt (e, (q, None) :: vars) (c, (p, None) :: cvars) -> forward lt e ->
  (match q with Some i => forall k, In (i, k) (keyed e) -> S (cnt lt e k) < fuel | None => 0 < fuel end)%nat -> fst (each impl pass op fuel p st (c, cvars)) <> NoFuel.
Proof using Hk Hp HQ.
  intros Ni. induction fuel as [|fuel IH]; intros q st e vars c p cvars R F Lf.
  - destruct q as [i|]; [|lia]. destruct (cursor_key _ _ _ _ _ _ R) as (k & v & _ & Ik & _). specialize (Lf k Ik). lia.
  - pose proof (round q st e vars c p cvars fuel R F) as Rd. destruct q as [i|]; [|destruct Rd as [_ ->]; discriminate].
    destruct Rd as (k & v & a & vars1 & r & e' & vars' & c' & cvars' & Ep & Ik & _ & _ & Rc & F' & Rd). destruct r as [[[|] st']| |]; [| | |contradiction].
    + destruct Rd as (q' & p' & En & R' & _ & ->). apply (IH q' st' e' vars'); auto. specialize (Lf k Ik). destruct q' as [j|]; [|lia]. intros kj Ij.
      assert (Ik' : In (i, k) (keyed e')) by (now apply (reach_keyed _ _ _ Rc)). pose proof (XRel_wf _ _ _ R') as W'. cbn [fst] in W'.
      assert (Hlt : lt k kj = true).
      { apply in_keyed in Ik' as (v' & Ik'). apply in_keyed in Ij as (vj & Ij). assert (Ep' : pair_of i e' = Some (k, v')) by (apply find_id_in; auto; apply W'). destruct (next_greater lt e' i j (k, v') W' F' Ep' En) as ([k2 v2] & I2 & H). cbn [fst] in H.
        assert (E2 : pair_of j e' = Some (k2, v2)) by (apply find_id_in; auto; apply W'). pose proof (nth_pair lt e' j kj vj _ W' Ij E2) as E. congruence. }
      assert (Lc : (cnt lt e' kj < cnt lt e' k)%nat) by (apply in_keyed in Ij as (vj & Ij); apply (cnt_less lt (kind_sw _ _ Hk) e' k j (kj, vj) Ij Hlt)).
      assert (Le : (cnt lt e' k <= cnt lt e k)%nat).
      { pose proof (XRel_wf _ _ _ R) as W. cbn [fst] in W. unfold cnt. rewrite <- (map_length (fun y => (fst y, key y)) (filter _ (all e'))), <- (map_length (fun y => (fst y, key y)) (filter _ (all e))). apply NoDup_incl_length.
        - apply (NoDup_map_inv fst). rewrite map_map. cbn [fst]. apply NoDup_map_filter. apply W'.
        - assert (Sub : incl (keyed e') (keyed e)). { apply (reach_inv Q (fun y => incl (keyed y) (keyed e)) e e' Rc); [apply incl_refl|]. intros o a0 b Qo _ _ G _ Ib [x y] Ix. destruct (g_new _ _ _ _ G x y Ix) as [I'|I']; auto. destruct (Ni o y Qo I'). }
          intros y Iy. apply in_map_iff in Iy as (z & <- & Iz). apply filter_In in Iz as [Iz Hz]. destruct (proj1 (in_keyed e (fst z) (key z))) as (w & Iw). { apply Sub. unfold keyed. now apply (in_map (fun y => (fst y, key y))). }
          apply in_map_iff. exists (fst z, (key z, w)). split; auto. apply filter_In. split; auto. }
      lia.
    + destruct Rd as (_ & _ & ->). discriminate.
    + destruct Rd as (_ & _ & ->). discriminate.
Qed.
End Loop.

(** ** What a loop visits *)
Lemma exec_pmap {A B} (f : A -> B) (p : xprog K V S0 A) : forall s : SS, exec (x_spec lt) (pmap f p) s = let '(r, s') := exec (x_spec lt) p s in (omap f r, s').
Proof. induction p as [a|o rest IH]; intros s; cbn; auto. destruct (x_spec lt o s) as [[r| |] s1]; auto. Qed.
Lemma only_pmap {A B} Q (f : A -> B) (p : xprog K V S0 A) : only Q p -> only Q (pmap f p).
Proof. intros O. induction O; cbn; constructor; auto. Qed.
Section Visits.
Context {A St : Type}.
Variables (give : nat -> M SS A) (pass : ptr -> M CS A).
Hypothesis Hp : passes give pass.
Variable op : St * list K -> K -> A -> xprog K V S0 (bool * (St * list K)).
Variable Q : xop K V S0 -> Prop.
Hypothesis HQ : forall st k a, only Q (op st k a).
(** It notes the keys. *)
Hypothesis Hl : forall st k a s r s', exec (x_spec lt) (op st k a) s = (Ok r, s') -> snd (snd r) = snd st ++ [k].
Variable stops : bool.
Hypothesis Hs : stops = false -> forall st k a s r s', exec (x_spec lt) (op st k a) s = (Ok r, s') -> fst r = true.
Variable Inv : option nat -> list K -> estate -> Prop.
Hypothesis Hi : forall i k v log e e' q', wf lt e -> Inv (Some i) log e -> pair_of i e = Some (k, v) -> In (i, k) (keyed e) -> reach Q e e' -> wf lt e' -> forward lt e' -> next_of i e' = Some q' -> Inv q' (log ++ [k]) e'.
Lemma each_visits fuel : forall q st log e vars c p cvars st' log' s', XRel lt (e, (q, None) :: vars) (c, (p, None) :: cvars) -> forward lt e -> Inv q log e ->
  each impl pass op fuel p (st, log) (c, cvars) = (Ok (st', log'), s') ->
  (exists e', Inv None log' e') \/ (stops = true /\ exists i log0 e0 k v, Inv (Some i) log0 e0 /\ wf lt e0 /\ pair_of i e0 = Some (k, v) /\ In (i, k) (keyed e0) /\ log' = log0 ++ [k]).
Proof using Hk Hp HQ Hl Hs Hi.
  induction fuel as [|fuel IH]; intros q st log e vars c p cvars st' log' s' R F HI Ee; [discriminate|].
  pose proof (round give pass Hp op Q HQ q (st, log) e vars c p cvars fuel R F) as Rd. destruct q as [i|].
  - destruct Rd as (k & v & a & vars1 & r & e' & vars' & c' & cvars' & Ep & Ik & _ & Ex & Rc & F' & Rd).
    pose proof (XRel_wf _ _ _ R) as W. cbn [fst] in W. destruct r as [[go [st0 log0]]| |].
    + pose proof (Hl _ _ _ _ _ _ Ex) as El. cbn [fst snd] in El. subst log0. destruct go.
      * destruct Rd as (q' & p' & En & R' & _ & Rd). rewrite Ee in Rd. pose proof (XRel_wf _ _ _ R') as W'. cbn [fst] in W'. eapply (IH q' st0 (log ++ [k]) e' vars' c' p' cvars'); eauto.
      * destruct Rd as (_ & _ & Rd). rewrite Ee in Rd. injection Rd as -> -> _. destruct stops eqn:Es; [|specialize (Hs eq_refl _ _ _ _ _ _ Ex); discriminate]. right. split; auto. exists i, log, e, k, v. auto 6.
    + destruct Rd as (_ & _ & Rd). rewrite Ee in Rd. discriminate.
    + contradiction.
  - destruct Rd as [_ Rd]. rewrite Ee in Rd. injection Rd as -> -> _. left. eauto.
Qed.
End Visits.
End Sim.

(** ** The three invariants of a loop *)
Section Invs.
Context {K V S0 : Type}.
Variables (impl : @slimpl K V) (lt : K -> K -> bool).
Hypothesis SW : strict_weak lt.
Notation estate := (estate K V).
Notation keys l := (map (fun x => (fst x, key x)) l).
Notation gids e := (map (fun g => fst (fst g)) (e_gone e)).
Variable Q : xop K V S0 -> Prop.
Implicit Types (e : estate).
Lemma keyed_fun e i k k' : wf lt e -> In (i, k) (keyed e) -> In (i, k') (keyed e) -> k = k'.
Proof.
  intros W I I'. apply in_keyed in I as (v & I). apply in_keyed in I' as (v' & I'). assert (E : pair_of i e = Some (k', v')) by (apply find_id_in; auto; apply W). pose proof (nth_pair lt e i k v _ W I E) as E2. congruence.
Qed.
Lemma in_live e i k : In (i, k) (keys (e_live e)) -> In (i, k) (keyed e).
Proof. rewrite keyed_app. intros I. apply in_app_iff. now left. Qed.
Lemma live_not_gone e i k : wf lt e -> In (i, k) (keys (e_live e)) -> In i (gids e) -> False.
Proof.
  intros [_ ND] I G. unfold all in ND. rewrite map_app in ND. apply in_map_iff in I as (x & E & I). injection E as <- _. apply in_map_iff in G as (g & E & G). apply in_split in I as (L & R & El). rewrite El, map_app in ND. cbn [map] in ND. rewrite <- app_assoc in ND. apply NoDup_remove_2 in ND. apply ND. rewrite !in_app_iff. right. right. rewrite <- E, map_map. now apply (in_map (fun g => fst (fst g))).
Qed.
Lemma first_live L R (x : nat * (K * V)) j e : e_live e = L ++ x :: R -> first_id R = Some j -> exists y R', R = y :: R' /\ fst y = j /\ In (j, key y) (keys (e_live e)).
Proof. intros El E. destruct R as [|y R]; [discriminate|]. injection E as <-. exists y, R. split; auto. split; auto. rewrite El. apply in_map_iff. exists y. split; auto. apply in_app_iff. right. right. now left. Qed.
Lemma next_cases e i q : wf lt e -> next_of i e = Some q -> (exists L x R, e_live e = L ++ x :: R /\ fst x = i /\ q = first_id R) \/ (exists g, In g (e_gone e) /\ fst (fst g) = i /\ snd g = q).
Proof.
  intros [_ ND] E. unfold next_of in E. destruct (in_dec Nat.eq_dec i (map fst (e_live e))) as [I|NI].
  - left. destruct (live_split e i I) as (L & p & R & El). exists L, (i, p), R. split; auto. split; auto. assert (NI : ~ In i (map fst L)). { unfold all in ND. rewrite El, <- app_assoc, map_app in ND. cbn in ND. apply NoDup_remove_2 in ND. intros J. apply ND. apply in_app_iff. now left. }
    rewrite El, behind_mid in E by auto. now injection E.
  - right. rewrite behind_none in E by auto. destruct (find _ (e_gone e)) as [g|] eqn:Ef; [|discriminate]. cbn in E. injection E as E. apply find_some in Ef as [If Ei]. apply Nat.eqb_eq in Ei. eauto.
Qed.

(** Ascending. *)
Definition I_asc (q : option nat) (log : list K) e : Prop :=
  ksorted lt (map (fun k => (k, tt)) log) /\ forall i, q = Some i -> exists k, In (i, k) (keyed e) /\ Forall (fun k' => lt k' k = true) log.
Lemma asc_snoc log k : ksorted lt (map (fun k => (k, tt)) log) -> Forall (fun k' => lt k' k = true) log -> ksorted lt (map (fun k => (k, tt)) (log ++ [k])).
Proof. intros S F. rewrite map_app. apply SS_app; auto; [repeat constructor|]. rewrite Forall_map. eapply Forall_imp; [|exact F]. intros x Hx. cbn. constructor; auto. Qed.
Lemma asc_step i k v log e e' q' : wf lt e -> I_asc (Some i) log e -> pair_of i e = Some (k, v) -> In (i, k) (keyed e) -> reach lt Q e e' -> wf lt e' -> forward lt e' -> next_of i e' = Some q' -> I_asc q' (log ++ [k]) e'.
Proof using SW.
  intros W [S H] _ Ik Rc W' F' En. destruct (H i eq_refl) as (k0 & Ik0 & Fl). rewrite (keyed_fun e i k0 k W Ik0 Ik) in *. split; [now apply asc_snoc|]. intros j ->.
  assert (Ik' : In (i, k) (keyed e')) by (now apply (reach_keyed _ _ _ _ Rc)). apply in_keyed in Ik' as (v' & Ik'). assert (Ep' : pair_of i e' = Some (k, v')) by (apply find_id_in; auto; apply W'). destruct (next_greater lt e' i j (k, v') W' F' Ep' En) as ([kj vj] & Ij & Hlt). cbn [fst] in Hlt.
  exists kj. split; [apply in_keyed; eauto|]. apply Forall_app. split; [|now constructor]. eapply Forall_imp; [|exact Fl]. intros x Hx. cbn in Hx |- *. eapply sw_trans; eauto.
Qed.

(** Visited keys were stored at the start or inserted by the callback; the loop
    does not meet the elements B removed before. *)
Variable e0 : estate.
Hypothesis W0 : wf lt e0.
Notation B := (gids e0).
Definition fine (k : K) : Prop := (exists i, In (i, k) (keys (e_live e0))) \/ exists o, Q o /\ inserts o k.
Record I_new e : Prop := mkNew {
  n_stay : incl B (gids e);
  n_live : forall j k, In (j, k) (keys (e_live e)) -> fine k;
  n_gone : forall g, In g (e_gone e) -> In (fst (fst g)) B \/ (fine (key (fst g)) /\ forall j, snd g = Some j -> ~ In j B) }.
Lemma new_first : I_new e0.
Proof.
  constructor; [apply incl_refl| |].
  - intros j k I. left. eauto.
  - intros g I. left. now apply (in_map (fun g => fst (fst g))).
Qed.
Lemma new_reach e e' : reach lt Q e e' -> I_new e -> I_new e'.
Proof.
  intros Rc. intros N. apply (reach_inv lt Q I_new e e' Rc N). clear. intros o e e1 Qo W W1 G Mv N. constructor.
  - intros i I. apply (m_stay _ _ Mv). now apply (n_stay _ N).
  - intros j k I. destruct (g_fresh _ _ _ _ G j k I) as [I'|I']; [now apply (n_live _ N j)|]. right. eauto.
  - intros g I. destruct (m_gone _ _ Mv g I) as [(g0 & I0 & Ei & Ek & En)|(L & x & R & El & Ei & Ek & En)].
    + rewrite <- Ei, <- Ek, <- En. now apply (n_gone _ N).
    + right. split.
      * rewrite <- Ek. apply (n_live _ N (fst x)). rewrite El. apply in_map_iff. exists x. split; auto. apply in_app_iff. right. now left.
      * intros j Ej IB. rewrite En in Ej. destruct (first_live L R x j e El Ej) as (y & R' & _ & _ & Iy). apply (live_not_gone e j (key y)); auto. now apply (n_stay _ N).
Qed.
Definition I_seen (q : option nat) (log : list K) e : Prop := I_new e /\ Forall fine log /\ forall i, q = Some i -> ~ In i B.
Lemma seen_key i k e : I_new e -> ~ In i B -> In (i, k) (keyed e) -> fine k.
Proof.
  intros N NB I. rewrite keyed_app in I. apply in_app_iff in I as [I|I]; [now apply (n_live _ N i)|]. rewrite map_map in I. apply in_map_iff in I as (g & E & I). injection E as Ei <-. destruct (n_gone _ N g I) as [H|[H _]]; auto. rewrite Ei in H. contradiction.
Qed.
Lemma next_new i e q : wf lt e -> I_new e -> ~ In i B -> next_of i e = Some q -> forall j, q = Some j -> ~ In j B.
Proof.
  intros W N NB En j -> IB. destruct (next_cases e i _ W En) as [(L & x & R & El & Ei & Ej)|(g & Ig & Ei & Ej)].
  - destruct (first_live L R x j e El (eq_sym Ej)) as (y & R' & _ & _ & Iy). apply (live_not_gone e j (key y)); auto. now apply (n_stay _ N).
  - destruct (n_gone _ N g Ig) as [H|[_ H]]; [rewrite Ei in H; contradiction|]. now apply (H j).
Qed.
Lemma seen_step i k v log e e' q' : wf lt e -> I_seen (Some i) log e -> pair_of i e = Some (k, v) -> In (i, k) (keyed e) -> reach lt Q e e' -> wf lt e' -> forward lt e' -> next_of i e' = Some q' -> I_seen q' (log ++ [k]) e'.
Proof.
  intros W (N & Fl & NB) _ Ik Rc W' F' En. specialize (NB i eq_refl). assert (N' : I_new e') by (now apply (new_reach e e')). split; auto. split.
  - apply Forall_app. split; auto. constructor; auto. now apply (seen_key i k e).
  - now apply (next_new i e').
Qed.

(** A key stored all the time is met. *)
Variables (ix : nat) (kx : K).
Hypothesis Hx : forall o, Q o -> ~ removes lt o kx.
Record I_still e : Prop := mkStill {
  s_new : I_new e;
  s_live : In (ix, kx) (keys (e_live e));
  s_gone : forall g, In g (e_gone e) -> ~ In (fst (fst g)) B -> lt (key (fst g)) kx = true -> exists d kd, snd g = Some d /\ In (d, kd) (keyed e) /\ lt kx kd = false }.
Lemma still_first : In (ix, kx) (keys (e_live e0)) -> I_still e0.
Proof.
  intros I. constructor; [apply new_first|auto|]. intros g Ig NB _. exfalso. apply NB. now apply (in_map (fun g => fst (fst g))).
Qed.
Lemma behind_still e L x R : wf lt e -> In (ix, kx) (keys (e_live e)) -> e_live e = L ++ x :: R -> lt (key x) kx = true -> exists d kd, first_id R = Some d /\ In (d, kd) (keyed e) /\ lt kx kd = false.
Proof using SW.
  clear Hx. intros [S _] I El Hl. apply in_map_iff in I as (y & E & I). injection E as E1 E2. rewrite El in I. rewrite El, map_app in S. apply SS_app_inv in S as (_ & S & FA). cbn in S. inversion S as [|? ? S2 FR]; subst. apply in_app_iff in I as [I|[I|I]].
  - exfalso. rewrite Forall_map, Forall_forall in FA. specialize (FA y I). inversion FA as [|? ? H _]; subst. unfold key in *. rewrite (lt_asym lt SW _ _ H) in Hl. discriminate.
  - subst y. rewrite (sw_irrefl lt SW) in Hl. discriminate.
  - destruct R as [|d R]; [destruct I|]. exists (fst d), (key d). split; auto. split.
    + apply in_live. rewrite El. apply in_map_iff. exists d. split; auto. apply in_app_iff. right. right. now left.
    + destruct I as [->|I]; [apply (sw_irrefl lt SW)|]. inversion S2 as [|? ? _ FF]; subst. rewrite Forall_map, Forall_forall in FF. apply (lt_asym lt SW). now apply FF.
Qed.
Lemma still_reach e e' : reach lt Q e e' -> I_still e -> I_still e'.
Proof using SW Hx.
  intros Rc J. enough (H : I_new e' /\ In (ix, kx) (keys (e_live e')) /\ forall g, In g (e_gone e') -> ~ In (fst (fst g)) B -> lt (key (fst g)) kx = true -> exists d kd, snd g = Some d /\ In (d, kd) (keyed e') /\ lt kx kd = false) by (destruct H as (? & ? & ?); constructor; auto).
  split; [apply (new_reach e e' Rc), J|].
  apply (reach_inv lt Q (fun e' => In (ix, kx) (keys (e_live e')) /\ forall g, In g (e_gone e') -> ~ In (fst (fst g)) B -> lt (key (fst g)) kx = true -> exists d kd, snd g = Some d /\ In (d, kd) (keyed e') /\ lt kx kd = false) e e' Rc); [split; apply J|].
  clear -SW Hx. intros o e e1 Qo W W1 G Mv [Lv Gn]. split; [now apply (g_live _ _ _ _ G), Hx|]. intros g Ig NB Hl.
  destruct (m_gone _ _ Mv g Ig) as [(g0 & I0 & Ei & Ek & En)|(L & x & R & El & Ei & Ek & En)].
  - destruct (Gn g0 I0) as (d & kd & E & Id & Hd); [now rewrite Ei|now rewrite Ek|]. exists d, kd. split; [congruence|]. split; auto. now apply (g_old _ _ _ _ G).
  - rewrite <- Ek in Hl. destruct (behind_still e L x R W Lv El Hl) as (d & kd & E & Id & Hd). exists d, kd. split; [congruence|]. split; auto. now apply (g_old _ _ _ _ G).
Qed.
Definition I_met (q : option nat) (log : list K) e : Prop :=
  I_still e /\ (Exists (fun k => eqv lt k kx = true) log \/ exists i k, q = Some i /\ ~ In i B /\ In (i, k) (keyed e) /\ lt kx k = false).
Lemma met_step i k v log e e' q' : wf lt e -> I_met (Some i) log e -> pair_of i e = Some (k, v) -> In (i, k) (keyed e) -> reach lt Q e e' -> wf lt e' -> forward lt e' -> next_of i e' = Some q' -> I_met q' (log ++ [k]) e'.
Proof using SW Hx.
  intros W [J H] _ Ik Rc W' F' En. assert (J' : I_still e') by (now apply (still_reach e e')). split; auto. destruct H as [H|(i' & k0 & Ei & NB & Ik0 & Hk0)]; [left; apply Exists_app; now left|]. injection Ei as <-. rewrite (keyed_fun e i k0 k W Ik0 Ik) in *.
  destruct (lt k kx) eqn:Hl; [|left; apply Exists_app; right; constructor; unfold eqv; now rewrite Hl, Hk0]. right.
  assert (exists d kd, q' = Some d /\ In (d, kd) (keyed e') /\ lt kx kd = false) as (d & kd & -> & Id & Hd).
  { pose proof (reach_keyed _ _ _ _ Rc _ Ik) as Ik'. destruct (next_cases e' i _ W' En) as [(L & x & R & El & Ei & ->)|(g & Ig & Ei & <-)].
    - assert (E : key x = k). { apply (keyed_fun e' i); auto. apply in_live. rewrite El. apply in_map_iff. exists x. split; [now rewrite Ei|]. apply in_app_iff. right. now left. } apply (behind_still e' L x R W' (s_live _ J') El). now rewrite E.
    - assert (E : key (fst g) = k). { apply (keyed_fun e' i); auto. rewrite keyed_app. apply in_app_iff. right. rewrite map_map. apply in_map_iff. exists g. split; auto. now rewrite Ei. } apply (s_gone _ J' g Ig); [now rewrite Ei|now rewrite E]. }
  exists d, kd. split; auto. split; auto. apply (next_new i e' _ W' (s_new _ J') NB En); auto.
Qed.
End Invs.
