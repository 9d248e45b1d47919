(** Sets whose comparison function only looks at them behave as with the pure one;
    those whose comparison function only writes prevsCache do for searches. *)
From Verif Require Import BaseLemmas Spec Trace Spec_List Spec_Map Spec_Set Spec_Fx Spec_SkipFx Spec_SkipSelf Nodes Proof_Nodes Model_SkipList Proof_SkipList Model_SkipListSet Model_SkipFx Proof_SkipFx Model_SkipSelf Proof_SkipSelf Model_SetSelf.

Section Exact.
Context {K X : Type}.
Variable compare : K -> K -> @Model_SkipFx.FP K unit X Z.
Variable cmp : K -> K -> Z.
Notation SP := (Nodes.P (slnode K unit) sklist).
Notation FP := (@Model_SkipFx.FP K unit X).
(** States that insertions and removals do not lead out of, in all of which the
    comparison function only looks. *)
Variable Q : list (slnode K unit) * sklist -> Prop.
Hypothesis A : forall s, Q s -> looks_on cmp compare s.
Hypothesis Qi : forall s k r, Q s -> Q (snd (set_Insert (implFunc cmp) k r s)).
Hypothesis Qr : forall s k, Q s -> Q (snd (set_Remove (implFunc cmp) k s)).
(** p does on s what the pure q does. *)
Definition alike {B} (s : list (slnode K unit) * sklist) (p : FP B) (q : SP B) : Prop := forall x,
  exists o s' x', p (s, x) = (o, (s', x')) /\ q s = (o, s').
Lemma alike_quiet {B} s (q : SP B) : alike s (quiet q) q.
Proof. intros x. unfold quiet. cbn [fst snd]. destruct (q s) as [o s']. exists o, s', x. auto. Qed.
Lemma alike_ret {B} s (b : B) : alike s (ret b) (ret b).
Proof. intros x. exists (Ok b), s, x. split; reflexivity. Qed.
Lemma alike_bind {B D} s (p : FP B) q (k : B -> FP D) k' : alike s p q -> (forall b s', q s = (Ok b, s') -> alike s' (k b) (k' b)) -> alike s (bind p k) (bind q k').
Proof.
  intros H1 H2 x. destruct (H1 x) as (o & s1 & x1 & E & Eq). unfold bind. rewrite E, Eq. destruct o as [b| |].
  - destruct (H2 b s1 Eq x1) as (o & s2 & x2 & E2 & Eq2). rewrite E2, Eq2. exists o, s2, x2. auto.
  - exists Panic, s1, x1. auto.
  - exists NoFuel, s1, x1. auto.
Qed.
Lemma alike_show {B R} s (f : B -> R) (p : FP B) q : alike s p q -> alike s (show f p) (show f q).
Proof. intros H x. destruct (H x) as (o & s' & x' & E & Eq). unfold show. rewrite E, Eq. exists (omap f o), s', x'. auto. Qed.
Lemma alike_call {B} s (p : FP B) q : call_same s p q -> alike s p q.
Proof. intros H x. exact (H s x (kept_refl s)). Qed.
Lemma len_still s : set_Len (K := K) s = (Ok (sl_len (snd s)), s).
Proof. reflexivity. Qed.
Lemma Insert_alike s k r : Q s -> alike s (set_Insert_self compare k r) (set_Insert (implFunc cmp) k r).
Proof using A.
  intros H. apply alike_bind; [apply alike_quiet|]. intros n s' E. rewrite len_still in E. injection E as _ <-.
  apply alike_bind.
  - apply alike_call. exact (call_same_then s _ _ _ (findInsertPoint_same compare cmp s (A s H) k)).
  - intros [] s' _. apply alike_bind; [apply alike_quiet|]. intros n' s2 _. apply alike_ret.
Qed.
Lemma Remove_alike s k : Q s -> alike s (set_Remove_self compare k) (set_Remove (implFunc cmp) k).
Proof using A.
  intros H. apply alike_call. exact (call_same_then s _ _ _ (findRemovePoint_same compare cmp s (A s H) k)).
Qed.
Lemma insertN_alike ks : forall s, Q s -> alike s (insertN_loop_self compare ks) (insert_loop (implFunc cmp) ks).
Proof using A Qi.
  induction ks as [|[k r] ks IH]; intros s H; cbn [insertN_loop_self insert_loop]; [apply alike_ret|].
  apply alike_bind; [now apply Insert_alike|]. intros b s' E. apply IH. pose proof (Qi s k r H) as H'. now rewrite E in H'.
Qed.
Lemma removeN_alike ks : forall s, Q s -> alike s (removeN_loop_self compare ks) (remove_loop (implFunc cmp) ks).
Proof using A Qr.
  induction ks as [|k ks IH]; intros s H; cbn [removeN_loop_self remove_loop]; [apply alike_ret|].
  apply alike_bind; [now apply Remove_alike|]. intros b s' E. apply IH. pose proof (Qr s k H) as H'. now rewrite E in H'.
Qed.
Lemma walk_alike s p q : same s p q -> alike s (si_walk_self p) (si_walk q).
Proof.
  intros H. apply alike_bind; [apply alike_quiet|]. intros fuel s' E. injection E as _ <-.
  apply alike_call. exact (call_same_then s p q _ H).
Qed.
Lemma set_step_alike {St} (o : sop K St) s : Q s -> alike s (set_step_self compare o) (set_step (implFunc cmp) o).
Proof using A Qi Qr.
  intros H. pose proof (A s H) as As. destruct o; cbn [set_step_self set_step]; apply alike_show; try apply alike_quiet.
  - now apply Insert_alike.
  - apply alike_bind; [apply alike_quiet|]. intros n s' E. rewrite len_still in E. injection E as _ <-.
    apply alike_bind; [now apply insertN_alike|]. intros [] s' _. apply alike_bind; [apply alike_quiet|]. intros. apply alike_ret.
  - now apply Remove_alike.
  - apply alike_bind; [apply alike_quiet|]. intros n s' E. rewrite len_still in E. injection E as _ <-.
    apply alike_bind; [now apply removeN_alike|]. intros [] s' _. apply alike_bind; [apply alike_quiet|]. intros. apply alike_ret.
  - apply alike_call. apply same_call. apply same_bind; [now apply findNode_same|]. intros. apply same_ret.
  - apply walk_alike. apply same_bind; [now apply lowerBound_same|]. intros. apply same_ret.
  - apply walk_alike. apply same_bind; [now apply upperBound_same|]. intros. apply same_ret.
  - apply walk_alike. apply same_bind; [now apply lowerBound_same|]. intros.
    apply same_bind; [now apply upperBound_same|]. intros. apply same_ret.
Qed.
End Exact.

(** ** Comparison functions that may write prevsCache *)
Lemma blind_si_loop {K} fuel : forall it seen, blind (si_loop (K := K) fuel it seen).
Proof.
  induction fuel as [|f IH]; intros it seen; cbn [si_loop]; [apply blind_nofuel|]. destruct (si_IsNotEnd it); [|apply blind_ret].
  apply blind_bind; [apply blind_key|apply inert_key|]. intros k.
  apply blind_bind; [|apply inert_bind; [apply inert_next|intros; apply inert_ret]|intros; apply IH].
  apply blind_bind; [apply blind_next|apply inert_next|intros; apply blind_ret].
Qed.
Lemma inert_si_loop {K} fuel : forall it seen, inert (si_loop (K := K) fuel it seen).
Proof.
  induction fuel as [|f IH]; intros it seen; cbn [si_loop]; [intros s; apply kept_refl|]. destruct (si_IsNotEnd it); [|apply inert_ret].
  apply inert_bind; [apply inert_key|]. intros k.
  apply inert_bind; [apply inert_bind; [apply inert_next|intros; apply inert_ret]|]. intros. apply IH.
Qed.
(** The calls that compare. *)
Definition set_compares {K St} (o : sop K St) : bool :=
  match o with
  | SInsert _ _ | SInsertN _ | SRemove _ | SRemoveN _ | SHas _ | SLower _ | SUpper _ | SRange _ _ => true
  | _ => false
  end.
Section Near.
Context {K X : Type}.
Variable compare : K -> K -> @Model_SkipFx.FP K unit X Z.
Variable cmp : K -> K -> Z.
Variable s0 : list (slnode K unit) * sklist.
Variable x0 : X.
Hypothesis A : keeps_on cmp compare s0.
Lemma near_si_walk p q : near s0 p q -> near (X := X) s0 (si_walk_self p) (si_walk q).
Proof.
  intros H. apply near_bind; [apply near_quiet; [apply blind_fuel|apply inert_fuel]|]. intros fuel. apply near_bind; [exact H|]. intros it.
  apply near_quiet; [apply blind_si_loop|apply inert_si_loop].
Qed.
Lemma set_step_near {St} (o : sop K St) : match o with SHas _ | SLower _ | SUpper _ | SRange _ _ => True | _ => False end ->
  near s0 (set_step_self compare o) (set_step (implFunc cmp) o).
Proof using A x0.
  destruct o; intros H'; try contradiction; cbn [set_step_self set_step]; apply near_show.
  - apply near_bind; [now apply findNode_near|]. intros. apply near_ret.
  - apply near_si_walk. apply near_bind; [now apply lowerBound_near|]. intros. apply near_ret.
  - apply near_si_walk. apply near_bind; [now apply upperBound_near|]. intros. apply near_ret.
  - apply near_si_walk. apply near_bind; [now apply lowerBound_near|]. intros. apply near_bind; [now apply upperBound_near|]. intros. apply near_ret.
Qed.
End Near.
Lemma set_step_quiet {K X St} (compare : K -> K -> @Model_SkipFx.FP K unit X Z) cmp (o : sop K St) s x : set_compares o = false ->
  set_step_self compare o (s, x) = (fst (set_step (implFunc cmp) o s), (snd (set_step (implFunc cmp) o s), x)).
Proof. destruct o; cbn [set_compares set_step_self set_step]; intros H; try discriminate H; apply show_quiet. Qed.

(** Removing a key that is not there writes only prevsCache. *)
Lemma fn_remove_inert {K V} (cmp : K -> K -> Z) key : inert (V := V) (fn_findRemovePoint cmp key).
Proof.
  intros s.
  destruct (findRemovePoint_same (X := unit) (fun a b s => (Ok (cmp a b), s)) cmp s (fun s2 x a b _ => ex_intro _ (cmp a b) (ex_intro _ x (conj eq_refl eq_refl))) key s tt (kept_refl s)) as (o & s' & x' & _ & Kp & E).
  rewrite E. exact Kp.
Qed.
Lemma never_no {S B} (p : M S B) (k : B -> M S bool) : (forall b s s', k b s <> (Ok false, s')) -> forall s s', bind p k s <> (Ok false, s').
Proof. intros H s s' E. unfold bind in E. destruct (p s) as [[b| |] s1]; try discriminate. exact (H _ _ _ E). Qed.
Lemma Remove_false {K V} (cmp : K -> K -> Z) key (s s' : list (slnode K V) * sklist) : Remove (implFunc cmp) key s = (Ok false, s') -> kept s s'.
Proof.
  intros E. pose proof (fn_remove_inert cmp key s) as Kp. unfold Remove in E. unfold bind at 1 in E. cbn [findRemovePoint implFunc] in E.
  destruct (fn_findRemovePoint cmp key s) as [[[node prevs]| |] s1]; try discriminate E. cbn [snd] in Kp.
  destruct (is_nil node); [now injection E as <-|]. exfalso. revert E. do 6 (apply never_no; intros ?). discriminate.
Qed.
