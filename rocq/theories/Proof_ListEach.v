(** What loops over lists with element identities visit. *)
From Verif Require Import BaseLemmas Spec Trace Spec_List Spec_Client Spec_ListIter Proof_Client Proof_ListIter.
From Verif Require Proof_SList.
Set Default Proof Using "Type".

Section W.
Context {T Q : Type}.
Variable to : option nat -> Q.
Notation W := (lworld T Q).
Implicit Types (w : W) (L R : list (nat * T)) (i j : nat) (v : T).
Lemma live_mid w L i v R : wf w -> w_live w = L ++ (i, v) :: R -> ~ In i (map fst L) /\ ~ In i (map fst R).
Proof. intros H E. apply wf_parts in H as (N1 & _). rewrite E, map_app in N1. cbn in N1. apply NoDup_remove_2 in N1. rewrite in_app_iff in N1. tauto. Qed.
Lemma at_live w L i v R : wf w -> w_live w = L ++ (i, v) :: R -> next_of to i w = Some (to (first_id R)) /\ value_of i w = Some v.
Proof.
  intros H E. destruct (live_mid _ _ _ _ _ H E) as [NL _]. split.
  - unfold next_of. rewrite E, behind_mid; auto.
  - unfold value_of. rewrite (find_value _ i v); auto.
    + apply wf_nodup in H. unfold ids in H. now rewrite map_app.
    + apply in_app_iff. left. rewrite E. apply in_app_iff. right. now left.
Qed.
Lemma at_gone w i v q : wf w -> In (i, v, q) (w_gone w) -> next_of to i w = Some q /\ value_of i w = Some v.
Proof.
  intros H I. assert (NL : ~ In i (map fst (w_live w))). { destruct (wf_parts _ H) as (_ & _ & N3). intros I2. apply (N3 _ I2). now apply (in_map fst), (in_map fst) in I. } split.
  - unfold next_of. rewrite behind_none by auto. rewrite (find_gone _ i v q); auto. now apply wf_parts in H as (_ & ? & _).
  - unfold value_of. rewrite (find_value _ i v); auto.
    + apply wf_nodup in H. unfold ids in H. now rewrite map_app.
    + apply in_app_iff. right. now apply (in_map fst) in I.
Qed.
(** The elements of w lead on and hold values in w' as in w. *)
Definition kept w w' : Prop := (w_made w <= w_made w')%nat /\ forall i, (i < w_made w)%nat -> next_of to i w' = next_of to i w.
Definition same_values w w' : Prop := forall i, (i < w_made w)%nat -> value_of i w' = value_of i w.
Lemma kept_refl w : kept w w.
Proof. split; auto. Qed.
Lemma kept_trans a b c : kept a b -> kept b c -> kept a c.
Proof. intros (A1 & A2) (B1 & B2). split; [lia|]. intros i L. rewrite B2 by lia. auto. Qed.
Lemma push_front_kept v w : wf w -> kept w (push_front v w).
Proof.
  intros H. split; [cbn; lia|]. intros i L. unfold next_of, push_front. cbn [w_live w_gone behind fst]. destruct (Nat.eqb_spec (w_made w) i); auto. lia.
Qed.
Lemma push_front_values v w : wf w -> same_values w (push_front v w).
Proof. intros H i L. unfold value_of, push_front. cbn [w_live w_gone app find fst]. destruct (Nat.eqb_spec (w_made w) i); auto. lia. Qed.
Lemma find_old w n v i : i <> n -> forall l, find (fun e : nat * T => Nat.eqb (fst e) i) ((l ++ [(n, v)]) ++ map fst (w_gone w)) = find (fun e => Nat.eqb (fst e) i) (l ++ map fst (w_gone w)).
Proof. intros N. induction l as [|e l IH]; cbn [app find fst]; [destruct (Nat.eqb_spec n i); auto; congruence|]. destruct (Nat.eqb (fst e) i); auto. Qed.
Lemma push_back_values v w : wf w -> same_values w (push_back v w).
Proof. intros H i L. unfold value_of, push_back. cbn [w_live w_gone]. rewrite find_old; auto. lia. Qed.
Lemma pop_front_kept w : wf w -> kept w (pop_front to w).
Proof.
  intros H. pose proof (wf_pop_front to w H) as H'. unfold pop_front in *. destruct (w_live w) as [|[j u] r] eqn:E; [split; auto|]. split; [cbn; lia|]. intros i Li.
  destruct (id_cases to w i H Li) as [(L & v & R & El & _ & En & _)|(v & q & I & _ & En & _)].
  - rewrite En. rewrite E in El. destruct L as [|e L]; cbn in El; inversion El; subst.
    + apply (at_gone _ i v); auto. now left.
    + now apply (at_live _ L i v R).
  - rewrite En. apply (at_gone _ i v q); auto. now right.
Qed.
Lemma find_perm {A} (p : A -> bool) (x : A) l : In x l -> p x = true -> (forall y, In y l -> p y = true -> y = x) -> find p l = Some x.
Proof.
  induction l as [|y l IH]; intros I Px U; [destruct I|]. cbn. destruct (p y) eqn:Py; [f_equal; apply U; auto; now left|]. destruct I as [->|I]; [congruence|]. apply IH; auto. intros z Iz. apply U. now right.
Qed.
(** Values depend only on the set of elements. *)
Lemma values_perm w w' : wf w -> (forall i v, In (i, v) (w_live w ++ map fst (w_gone w)) -> In (i, v) (w_live w' ++ map fst (w_gone w'))) -> wf w' -> same_values w w'.
Proof using to.
  intros H S H' i L. destruct (id_cases to w i H L) as [(L0 & v & R & El & Ev & _)|(v & q & I & Ev & _)]; rewrite Ev; unfold value_of.
  - rewrite (find_value _ i v); auto; [apply wf_nodup in H'; unfold ids in H'; now rewrite map_app|]. apply S. apply in_app_iff. left. rewrite El. apply in_app_iff. right. now left.
  - rewrite (find_value _ i v); auto; [apply wf_nodup in H'; unfold ids in H'; now rewrite map_app|]. apply S. apply in_app_iff. right. now apply (in_map fst) in I.
Qed.
Lemma pop_front_values q w : wf w -> same_values w (pop_front q w).
Proof using to.
  intros H. apply values_perm; auto; [|now apply wf_pop_front]. unfold pop_front. destruct (w_live w) as [|e r] eqn:E; [rewrite E; auto|]. cbn [w_live w_gone map fst]. intros i v. rewrite !in_app_iff. cbn. tauto.
Qed.
Lemma pop_back_values q w : wf w -> same_values w (pop_back q w).
Proof using to.
  intros H. apply values_perm; auto; [|now apply wf_pop_back]. unfold pop_back. destruct (rev (w_live w)) as [|e r] eqn:E; auto. apply (f_equal (@rev _)) in E. rewrite rev_involutive in E. cbn [w_live w_gone map fst]. rewrite E. cbn [rev]. intros i v. rewrite !in_app_iff. cbn. tauto.
Qed.
Lemma clear_values w : wf w -> same_values w (clear to w).
Proof. intros H. apply values_perm; auto; [|now apply wf_clear]. unfold clear. cbn [w_live w_gone app]. intros i v. now rewrite map_app, leaving_ids. Qed.
Lemma reverse_values w : wf w -> same_values w (reverse w).
Proof using to. intros H. apply values_perm; auto; [|now apply wf_reverse]. intros i v. unfold reverse. cbn [w_live w_gone]. rewrite !in_app_iff, <- in_rev. auto. Qed.
Lemma leaving_has L i v R : In (i, v, to (first_id R)) (leaving to (L ++ (i, v) :: R)).
Proof. induction L as [|e L IH]; cbn; auto. Qed.
Lemma clear_kept w : wf w -> kept w (clear to w).
Proof.
  intros H. pose proof (wf_clear to w H) as H'. split; [cbn; lia|]. intros i Li. destruct (id_cases to w i H Li) as [(L & v & R & El & _ & En & _)|(v & q & I & _ & En & _)]; rewrite En.
  - apply (at_gone _ i v); auto. unfold clear. cbn [w_gone]. apply in_app_iff. left. rewrite El. apply leaving_has.
  - apply (at_gone _ i v q); auto. unfold clear. cbn [w_gone]. apply in_app_iff. now right.
Qed.
Lemma behind_ids i (l : list (nat * T)) : forall l' : list (nat * T), map fst l' = map fst l -> behind i l' = behind i l.
Proof.
  induction l as [|[j u] l IH]; intros [|[j' u'] l'] E; try discriminate; auto. cbn in *. injection E as -> E. destruct (Nat.eqb j i); auto. f_equal. destruct l as [|[x y] l], l' as [|[x' y'] l']; try discriminate; auto. cbn in *. congruence.
Qed.
Lemma revalue_kept xs w : length xs = length (w_live w) -> kept w (revalue xs w).
Proof. intros E. split; [cbn; lia|]. intros i Li. unfold next_of, revalue. cbn [w_live w_gone]. rewrite (behind_ids i (w_live w)); auto. rewrite combine_fst; auto. now rewrite map_length. Qed.
Lemma revalue_same w : revalue (values w) w = w.
Proof. destruct w as [l g m]. unfold revalue, values. cbn [w_live w_gone w_made]. f_equal. induction l as [|[i v] l IH]; cbn; congruence. Qed.
Lemma find_write i j v (g : list (nat * T * Q)) : option_map snd (find (fun e => Nat.eqb (fst (fst e)) i) (map (fun x => (write j v (fst x), snd x)) g)) = option_map snd (find (fun e => Nat.eqb (fst (fst e)) i) g).
Proof. induction g as [|[[a u] q] g IH]; cbn [map find fst snd option_map]; auto. rewrite write_fst. cbn [fst]. destruct (Nat.eqb a i); auto. Qed.
Lemma store_kept j v w : kept w (store j v w).
Proof.
  split; [cbn; lia|]. intros i Li. unfold next_of, store. cbn [w_live w_gone]. rewrite (behind_ids i (w_live w)); [|rewrite map_map; apply map_ext; intros; apply write_fst]. now rewrite find_write.
Qed.
End W.

(** *** SList *)
Lemma slist_len {T St} (o : sop T St) xs : match o with LPushFront _ | LPushBack _ | LPopFront | LReverse | LClear => True | _ => length (snd (slist_spec o xs)) = length xs end.
Proof. destruct o; cbn; auto; [now rewrite <- (Proof_SList.map_st_len cb xs st); destruct (map_st cb st xs)|now rewrite <- (Proof_SList.map_while_len cb xs st); destruct (map_while cb st xs)|apply upd_length]. Qed.
Section SL.
Context {T St : Type}.
Notation W := (lworld T (option nat)).
Notation L := (@sl_spec T St).
Notation id_to := (fun q : option nat => q).
Lemma sl_wf (o : sop T St) (w : W) : wf w -> wf (sl_world o w).
Proof.
  intros H. pose proof (slist_len o (values w)) as E. destruct o; cbn [sl_world]; try (apply wf_revalue; [rewrite E; unfold values; now rewrite map_length|exact H]).
  - now apply wf_push_front.
  - now apply wf_push_back.
  - now apply wf_pop_front.
  - now apply wf_reverse.
  - now apply wf_clear.
Qed.
Lemma sl_call_kept (o : sop T St) (w : W) : wf w -> ~ sl_appends (ICall o) -> kept id_to w (sl_world o w).
Proof.
  intros H N. pose proof (slist_len o (values w)) as E. destruct o; cbn [sl_world]; try (apply revalue_kept; rewrite E; unfold values; now rewrite map_length).
  - now apply push_front_kept.
  - destruct (N I).
  - now apply pop_front_kept.
  - destruct (N I).
  - now apply clear_kept.
Qed.
Lemma sl_call_values (o : sop T St) (w : W) : wf w -> ~ sl_writes (ICall o) -> same_values w (sl_world o w).
Proof.
  intros H N. destruct o; cbn [sl_world slist_spec snd]; rewrite ?revalue_same; try (intros ? ?; reflexivity); try (destruct (N I)).
  - now apply push_front_values.
  - now apply push_back_values.
  - now apply (pop_front_values id_to).
  - now apply (reverse_values id_to).
  - now apply clear_values.
Qed.
(** Statements change the world only by calls and stores. *)
Lemma sl_client_world (o : iop (sop T St) T) (w : W) vars : fst (snd (client L o (w, vars))) = match o with ICall c => sl_world c w | IStore x v => match nth_error vars x with Some (Some i) => store i v w | _ => w end | _ => w end.
Proof.
  destruct o; cbn [client]; unfold bind, on_list, declare, assign, with_var, pure; cbn [fst snd l_call l_iterate l_pointer l_more l_next l_value l_store sl_spec].
  - now destruct (fst (slist_spec c (values w))).
  - reflexivity.
  - destruct (nth_error vars x) as [[i|]|]; reflexivity.
  - destruct (nth_error vars x) as [[i|]|]; reflexivity.
  - destruct (nth_error vars x) as [[i|]|]; cbn; auto. unfold some_or_panic. now destruct (next_of id_to i w).
  - destruct (nth_error vars x) as [[i|]|]; cbn; auto. unfold some_or_panic. now destruct (value_of i w).
  - destruct (nth_error vars x) as [[i|]|]; reflexivity.
Qed.
Lemma sl_client_wf o w vars : wf w -> wf (fst (snd (client L o (w, vars)))).
Proof. intros H. rewrite sl_client_world. destruct o; auto; [now apply sl_wf|]. destruct (nth_error vars x) as [[i|]|]; auto. now apply wf_store. Qed.
Lemma sl_client_kept o w vars : wf w -> ~ sl_appends o -> kept id_to w (fst (snd (client L o (w, vars)))).
Proof. intros H N. rewrite sl_client_world. destruct o; try apply kept_refl; [now apply sl_call_kept|]. destruct (nth_error vars x) as [[i|]|]; try apply kept_refl. apply store_kept. Qed.
Lemma sl_client_values o w vars : wf w -> ~ sl_writes o -> same_values w (fst (snd (client L o (w, vars)))).
Proof. intros H N. rewrite sl_client_world. destruct o; try (intros ? ?; reflexivity); [now apply sl_call_values|]. destruct (N I). Qed.
Notation sprog := (prog (iop (sop T St) T) (ires (res T St) T)).
Lemma sl_exec_wf {A} (p : sprog A) (x : W * list (option nat)) : wf (fst x) -> wf (fst (snd (exec (client L) p x))).
Proof. intros H. apply (exec_inv (client L) (fun _ => True) (fun s => wf (fst s)) p); auto; [now apply only_all|]. intros o [w vars] _ Hw. now apply sl_client_wf. Qed.
Lemma sl_made o w vars : (w_made w <= w_made (fst (snd (client L o (w, vars)))))%nat.
Proof.
  rewrite sl_client_world. destruct o as [c| | | | | |x v]; auto; [destruct c; cbn; auto; unfold pop_front; destruct (w_live w); auto|]. destruct (nth_error vars x) as [[i|]|]; auto.
Qed.
Lemma sl_exec_kept {A} (p : sprog A) (x : W * list (option nat)) : only (fun o => ~ sl_appends o) p -> wf (fst x) -> kept id_to (fst x) (fst (snd (exec (client L) p x))).
Proof.
  intros On H. refine (proj2 (exec_inv (client L) _ (fun s => wf (fst s) /\ kept id_to (fst x) (fst s)) p On _ x (conj H (kept_refl _ _)))).
  intros o [w vars] No [Hw K]. split; [now apply sl_client_wf|]. eapply kept_trans; [exact K|]. now apply sl_client_kept.
Qed.
Lemma sl_exec_values {A} (p : sprog A) (x : W * list (option nat)) : only (fun o => ~ sl_writes o) p -> wf (fst x) -> same_values (fst x) (fst (snd (exec (client L) p x))).
Proof.
  intros On H. refine (proj2 (proj2 (exec_inv (client L) _ (fun s => wf (fst s) /\ (w_made (fst x) <= w_made (fst s))%nat /\ same_values (fst x) (fst s)) p On _ x (conj H (conj (le_n _) _))))).
  - intros o [w vars] No (Hw & M1 & K). split; [now apply sl_client_wf|]. pose proof (sl_made o w vars). cbn [fst] in *. split; [lia|]. intros i Li. rewrite (sl_client_values o w vars Hw No) by lia. auto.
  - intros i Li. reflexivity.
Qed.
End SL.

(** *** Loops whose callbacks leave the way on alone *)
Section Each.
Context {C R T S P A St : Type}.
Variable L : listing C R T S P.
Notation CS := (S * list P)%type.
Notation cprog := (prog (iop C T) (ires R T)).
(** From p the positions ps lie ahead. *)
Variable Ahead : S -> P -> list P -> Prop.
Hypothesis at_end : forall s p, Ahead s p [] -> l_more L p s = (Ok false, s).
Hypothesis at_next : forall s p p' r, Ahead s p (p' :: r) -> p' = p /\ l_more L p s = (Ok true, s) /\ exists q, l_next L p s = (Ok q, s) /\ Ahead s q r.
Variable give : P -> M CS A.
Hypothesis give_stays : forall p x, fst (snd (give p x)) = fst x.
Variable op : St -> A -> cprog (bool * St).
Hypothesis op_ahead : forall st a x p ps, Ahead (fst x) p ps -> Ahead (fst (snd (exec (client L) (op st a) x))) p ps.
Lemma on_list_same {B} (m : M S B) (b : B) s vars : m s = (Ok b, s) -> on_list (P := P) m (s, vars) = (Ok b, (s, vars)).
Proof. intros E. unfold on_list. cbn [fst snd]. now rewrite E. Qed.
Lemma each_over ps : forall fuel p st x, Ahead (fst x) p ps -> (length ps < fuel)%nat -> each L give op fuel p st x = over_at L give op ps st x.
Proof using at_end at_next give_stays op_ahead.
  induction ps as [|p' ps IH]; intros fuel p st [s vars] Ha Lf; cbn [fst] in Ha; (destruct fuel as [|fuel]; [cbn in Lf; lia|]); cbn [each over_at]; unfold bind.
  - rewrite (on_list_same _ _ _ vars (at_end _ _ Ha)). reflexivity.
  - destruct (at_next _ _ _ _ Ha) as (-> & Em & _). rewrite (on_list_same _ _ _ vars Em). cbn [negb]. pose proof (give_stays p (s, vars)) as G. destruct (give p (s, vars)) as [[a| |] [s1 vars1]]; auto. cbn [fst snd] in G. subst s1.
    pose proof (op_ahead st a (s, vars1) p (p :: ps) Ha) as Ha2. destruct (exec (client L) (op st a) (s, vars1)) as [[[b st1]| |] [s2 vars2]]; auto. cbn [fst snd] in *. destruct b; auto.
    destruct (at_next _ _ _ _ Ha2) as (_ & _ & q & En & Hq). rewrite (on_list_same _ _ _ vars2 En). apply IH; auto. cbn in Lf. lia.
Qed.
End Each.
Lemma give_value_stays {C R T S P} (L : listing C R T S P) : (forall p s, snd (l_value L p s) = s) -> forall p x, fst (snd (give_value L p x)) = fst x.
Proof. intros H p [s vars]. unfold give_value, on_list. cbn [fst snd]. specialize (H p s). destruct (l_value L p s). now subst. Qed.
Lemma give_pointer_stays {C R T S P} (L : listing C R T S P) : (forall p s, snd (l_pointer L p s) = s) -> forall p x, fst (snd (give_pointer L p x)) = fst x.
Proof. intros H p [s vars]. unfold give_pointer, on_list, declare, bind. cbn [fst snd]. specialize (H p s). destruct (l_pointer L p s) as [[u| |] s1]; now subst. Qed.
(** Giving values that stay. *)
Lemma over_values {C R T S P St} (L : listing C R T S P) (op : St -> T -> prog (iop C T) (ires R T) (bool * St)) (Holds : S -> P -> T -> Prop) :
  (forall s p v, Holds s p v -> l_value L p s = (Ok v, s)) -> (forall st a x p v, Holds (fst x) p v -> Holds (fst (snd (exec (client L) (op st a) x))) p v) ->
  forall ps vs st x, Forall2 (Holds (fst x)) ps vs -> over_at L (give_value L) op ps st x = exec (client L) (over op vs st) x.
Proof.
  intros Hv Hk. induction ps as [|p ps IH]; intros vs st [s vars] F; cbn [fst] in F; inversion F as [|? v ? vs' Hp F']; subst; cbn [over_at over]; [reflexivity|]. rewrite exec_bind. unfold bind, give_value. rewrite (on_list_same _ _ _ vars (Hv _ _ _ Hp)).
  assert (F2 : Forall2 (Holds (fst (snd (exec (client L) (op st v) (s, vars))))) ps vs'). { clear - F' Hk. induction F'; constructor; auto. }
  destruct (exec (client L) (op st v) (s, vars)) as [[[b st1]| |] x1]; auto. cbn [fst snd] in *. destruct b; auto.
Qed.

(** *** SList *)
Section SLEach.
Context {T S0 : Type}.
Notation W := (lworld T (option nat)).
Notation L := (@sl_spec T S0).
Notation id_to := (fun q : option nat => q).
Fixpoint sl_ahead (w : W) (p : option nat) (ps : list (option nat)) : Prop :=
  match ps with
  | [] => p = None
  | p' :: r => p' = p /\ exists i q, p = Some i /\ (i < w_made w)%nat /\ next_of id_to i w = Some q /\ sl_ahead w q r
  end.
Lemma sl_ahead_kept (w w' : W) ps : kept id_to w w' -> forall p, sl_ahead w p ps -> sl_ahead w' p ps.
Proof.
  intros (M1 & K). induction ps as [|p' ps IH]; intros p; cbn; auto. intros (-> & i & q & -> & Li & En & H). split; auto. exists i, q. split; auto. split; [lia|]. rewrite K by auto. auto.
Qed.
Lemma sl_ahead_live (w : W) : wf w -> forall R0 L0, w_live w = L0 ++ R0 -> sl_ahead w (first_id R0) (map Some (map fst R0)).
Proof.
  intros H. induction R0 as [|[i v] R0 IH]; intros L0 E; cbn [map sl_ahead]; auto. split; auto. exists i, (first_id R0). split; auto. split; [apply (live_lt w i v H); rewrite E; apply in_app_iff; right; now left|].
  split; [now apply (at_live id_to w L0 i v R0)|]. apply (IH (L0 ++ [(i, v)])). now rewrite <- app_assoc.
Qed.
Definition sl_Ahead (w : W) p ps := wf w /\ sl_ahead w p ps.
Lemma sl_at_end w p : sl_Ahead w p [] -> l_more L p w = (Ok false, w).
Proof. intros [_ E]. cbn in E. now subst p. Qed.
Lemma sl_at_next w p p' r : sl_Ahead w p (p' :: r) -> p' = p /\ l_more L p w = (Ok true, w) /\ exists q, l_next L p w = (Ok q, w) /\ sl_Ahead w q r.
Proof. intros [H (-> & i & q & -> & Li & En & Hr)]. split; auto. split; auto. exists q. cbn. unfold pure. rewrite En. split; auto. now split. Qed.
Lemma sl_from_start {A St} (give : option nat -> M (W * list (option nat)) A) (op : St -> A -> prog (iop (sop T S0) T) (ires (res T S0) T) (bool * St)) fuel st (w : W) vars :
  (forall p x, fst (snd (give p x)) = fst x) -> (forall st a, only (fun o => ~ sl_appends o) (op st a)) -> wf w -> (length (w_live w) < fuel)%nat ->
  from_start L give op fuel st (w, vars) = over_at L give op (map Some (map fst (w_live w))) st (w, vars).
Proof.
  intros Hg Ho H Lf. unfold from_start, bind. rewrite (on_list_same (l_iterate L) (first_id (w_live w)) w vars) by reflexivity.
  apply (each_over L sl_Ahead sl_at_end sl_at_next give Hg op).
  - intros st0 a [w0 vars0] p ps [H0 Ha]. split; [now apply sl_exec_wf|]. eapply sl_ahead_kept; [|exact Ha]. apply (sl_exec_kept (op st0 a) (w0, vars0)); auto.
  - split; auto. now apply (sl_ahead_live w H _ []).
  - now rewrite !map_length.
Qed.
Lemma sl_values {St} (op : St -> T -> prog (iop (sop T S0) T) (ires (res T S0) T) (bool * St)) st (w : W) vars : wf w -> (forall st a, only (fun o => ~ sl_writes o) (op st a)) ->
  over_at L (give_value L) op (map Some (map fst (w_live w))) st (w, vars) = exec (client L) (over op (values w) st) (w, vars).
Proof.
  intros H Ho. apply (over_values L op (fun w p v => wf w /\ exists i, p = Some i /\ (i < w_made w)%nat /\ value_of i w = Some v)).
  - intros s p v (_ & i & -> & _ & E). cbn. unfold pure. now rewrite E.
  - intros st0 a [w0 vars0] p v (H0 & i & -> & Li & E). cbn [fst] in *. split; [now apply sl_exec_wf|]. exists i. split; auto.
    assert (Lm : (w_made w0 <= w_made (fst (snd (exec (client L) (op st0 a) (w0, vars0)))))%nat).
    { apply (exec_inv (client L) (fun _ => True) (fun s => (w_made w0 <= w_made (fst s))%nat)); auto; [now apply only_all|]. intros o [w1 vars1] _ M1. pose proof (sl_made o w1 vars1). cbn [fst] in *. lia. }
    split; [lia|]. rewrite (sl_exec_values (op st0 a) (w0, vars0)); auto.
  - cbn [fst]. unfold values. assert (F : forall R0 L0, w_live w = L0 ++ R0 -> Forall2 (fun p v => wf w /\ exists i, p = Some i /\ (i < w_made w)%nat /\ value_of i w = Some v) (map Some (map fst R0)) (map snd R0)).
    { induction R0 as [|[i v] R0 IH]; intros L0 E; constructor; [|apply (IH (L0 ++ [(i, v)])); now rewrite <- app_assoc]. split; auto. exists i. split; auto. split; [apply (live_lt w i v H); rewrite E; apply in_app_iff; right; now left|].
      now apply (at_live id_to w L0 i v R0). }
    now apply (F _ []).
Qed.
End SLEach.

(** *** DList *)
Lemma dlist_len {T St} zero (o : dop T St) xs : match o with DPushFront _ | DPushBack _ | DPopFront | DPopBack | DTryPopFront | DTryPopBack | DClear => True | _ => length (snd (dlist_spec zero o xs)) = length xs end.
Proof. destruct o; cbn; auto; [now rewrite <- (Proof_SList.map_st_len cb xs st); destruct (map_st cb st xs)|now rewrite <- (Proof_SList.map_while_len cb xs st); destruct (map_while cb st xs)|apply upd_length]. Qed.
Section DL.
Context {T S0 : Type}.
Variable zero : T.
Notation W := (dworld T).
Notation L := (@dl_spec T S0 zero).
Definition dwf (w : W) : Prop := wf (dw_list w) /\ (exists_end w = false -> w_live (dw_list w) = []).
Lemma dl_wf (o : dop T S0) (w : W) : dwf w -> dwf (dl_world zero o w).
Proof.
  intros [H E]. pose proof (dlist_len zero o (values (dw_list w))) as El.
  assert (Hr : forall xs, length xs = length (values (dw_list w)) -> dwf (on_world (revalue xs) w)).
  { intros xs Ex. split; [apply wf_revalue; auto; rewrite Ex; unfold values; now rewrite map_length|]. cbn. intros En. now rewrite E. }
  destruct o; cbn [dl_world]; auto; (split; [|try (cbn; discriminate)]); cbn [on_world dw_list]; auto using wf_push_front, wf_push_back, wf_pop_front, wf_pop_back, wf_clear.
  all: intros En; cbn in *; apply E in En; unfold pop_front, pop_back; rewrite En; auto.
Qed.
Lemma dl_call_kept (o : dop T S0) (w : W) : dwf w -> ~ dl_appends (ICall o) -> ~ dl_pops (ICall o) -> kept to_place (dw_list w) (dw_list (dl_world zero o w)).
Proof.
  intros [H _] N1 N2. pose proof (dlist_len zero o (values (dw_list w))) as E. destruct o; cbn [dl_world on_world dw_list]; try (apply revalue_kept; rewrite E; unfold values; now rewrite map_length); try (destruct (N1 I)); try (destruct (N2 I)).
  - now apply push_front_kept.
  - now apply clear_kept.
Qed.
Lemma dl_call_values (o : dop T S0) (w : W) : dwf w -> ~ dl_writes (ICall o) -> same_values (dw_list w) (dw_list (dl_world zero o w)).
Proof.
  intros [H _] N. destruct o; cbn [dl_world on_world dw_list dlist_spec snd]; rewrite ?revalue_same; try (intros ? ?; reflexivity); try (destruct (N I)); auto using push_front_values, push_back_values, clear_values; first [now apply (pop_front_values to_place)|now apply (pop_back_values to_place)].
Qed.
Lemma dl_client_world (o : iop (dop T S0) T) (w : W) vars : fst (snd (client L o (w, vars))) =
  match o with ICall c => dl_world zero c w | IStore x v => match nth_error vars x with Some (At i) => on_world (store i v) w | Some End => mkDW (dw_list w) (Some v) | _ => w end | _ => w end.
Proof.
  destruct o; cbn [client]; unfold bind, on_list, declare, assign, with_var, pure; cbn [fst snd l_call l_iterate l_pointer l_more l_next l_value l_store dl_spec].
  - now destruct (fst (dlist_spec zero c (values (dw_list w)))).
  - reflexivity.
  - destruct (nth_error vars x) as [[| |i]|]; reflexivity.
  - destruct (nth_error vars x) as [[| |i]|]; reflexivity.
  - destruct (nth_error vars x) as [p|]; auto. unfold pure. cbn [fst snd]. now destruct (dl_next p w).
  - destruct (nth_error vars x) as [p|]; auto. unfold pure. cbn [fst snd]. now destruct (dl_value p w).
  - destruct (nth_error vars x) as [[| |i]|]; reflexivity.
Qed.
Lemma dl_client_wf o w vars : dwf w -> dwf (fst (snd (client L o (w, vars)))).
Proof.
  intros H. rewrite dl_client_world. destruct o; auto; [now apply dl_wf|]. destruct (nth_error vars x) as [[| |i]|]; auto; destruct H as [H E]; split; auto; [discriminate|now apply wf_store|]. cbn. intros En. now rewrite E.
Qed.
Lemma dl_client_kept o w vars : dwf w -> ~ dl_appends o -> ~ dl_pops o -> kept to_place (dw_list w) (dw_list (fst (snd (client L o (w, vars))))).
Proof. intros H N1 N2. rewrite dl_client_world. destruct o; try apply kept_refl; [now apply dl_call_kept|]. destruct (nth_error vars x) as [[| |i]|]; try apply kept_refl. apply store_kept. Qed.
Lemma dl_client_values o w vars : dwf w -> ~ dl_writes o -> same_values (dw_list w) (dw_list (fst (snd (client L o (w, vars))))).
Proof. intros H N. rewrite dl_client_world. destruct o; try (intros ? ?; reflexivity); [now apply dl_call_values|]. destruct (N I). Qed.
Lemma dl_client_end o w vars : exists_end w = true -> exists_end (fst (snd (client L o (w, vars)))) = true.
Proof.
  intros H. rewrite dl_client_world. destruct o as [c| | | | | |x v]; auto; [destruct c; auto|]. destruct (nth_error vars x) as [[| |i]|]; auto.
Qed.
Notation dprog := (prog (iop (dop T S0) T) (ires (res T S0) T)).
Lemma dl_exec_wf {A} (p : dprog A) (x : W * list place) : dwf (fst x) -> dwf (fst (snd (exec (client L) p x))).
Proof. intros H. apply (exec_inv (client L) (fun _ => True) (fun s => dwf (fst s)) p); auto; [now apply only_all|]. intros o [w vars] _ Hw. now apply dl_client_wf. Qed.
Lemma dl_made o w vars : (w_made (dw_list w) <= w_made (dw_list (fst (snd (client L o (w, vars))))))%nat.
Proof.
  rewrite dl_client_world. destruct o as [c| | | | | |x v]; auto; [|destruct (nth_error vars x) as [[| |i]|]; auto].
  destruct c; cbn; auto; unfold pop_front, pop_back; try (destruct (w_live (dw_list w)); auto); destruct (rev _); auto.
Qed.
Lemma dl_exec_kept {A} (p : dprog A) (x : W * list place) : only (fun o => ~ dl_appends o /\ ~ dl_pops o) p -> dwf (fst x) -> kept to_place (dw_list (fst x)) (dw_list (fst (snd (exec (client L) p x)))).
Proof.
  intros On H. refine (proj2 (exec_inv (client L) _ (fun s => dwf (fst s) /\ kept to_place (dw_list (fst x)) (dw_list (fst s))) p On _ x (conj H (kept_refl _ _)))).
  intros o [w vars] [No Np] [Hw K]. split; [now apply dl_client_wf|]. eapply kept_trans; [exact K|]. now apply dl_client_kept.
Qed.
Lemma dl_exec_values {A} (p : dprog A) (x : W * list place) : only (fun o => ~ dl_writes o) p -> dwf (fst x) -> same_values (dw_list (fst x)) (dw_list (fst (snd (exec (client L) p x)))).
Proof.
  intros On H. refine (proj2 (proj2 (exec_inv (client L) _ (fun s => dwf (fst s) /\ (w_made (dw_list (fst x)) <= w_made (dw_list (fst s)))%nat /\ same_values (dw_list (fst x)) (dw_list (fst s))) p On _ x (conj H (conj (le_n _) _))))).
  - intros o [w vars] No (Hw & M1 & K). split; [now apply dl_client_wf|]. pose proof (dl_made o w vars). cbn [fst] in *. split; [lia|]. intros i Li. rewrite (dl_client_values o w vars Hw No) by lia. auto.
  - intros i Li. reflexivity.
Qed.
Lemma dl_exec_end {A} (p : dprog A) (x : W * list place) : exists_end (fst x) = true -> exists_end (fst (snd (exec (client L) p x))) = true.
Proof. intros H. apply (exec_inv (client L) (fun _ => True) (fun s => exists_end (fst s) = true) p); auto; [now apply only_all|]. intros o [w vars] _ Hw. now apply dl_client_end. Qed.
Lemma dl_exec_made {A} (p : dprog A) (x : W * list place) : (w_made (dw_list (fst x)) <= w_made (dw_list (fst (snd (exec (client L) p x)))))%nat.
Proof.
  apply (exec_inv (client L) (fun _ => True) (fun s => (w_made (dw_list (fst x)) <= w_made (dw_list (fst s)))%nat)); auto; [now apply only_all|]. intros o [w1 vars1] _ M1. pose proof (dl_made o w1 vars1). cbn [fst] in *. lia.
Qed.

Fixpoint dl_ahead (w : lworld T place) (p : place) (ps : list place) : Prop :=
  match ps with
  | [] => p = End
  | p' :: r => p' = p /\ exists i q, p = At i /\ (i < w_made w)%nat /\ next_of to_place i w = Some q /\ dl_ahead w q r
  end.
Lemma dl_ahead_kept w w' ps : kept to_place w w' -> forall p, dl_ahead w p ps -> dl_ahead w' p ps.
Proof.
  intros (M1 & K). induction ps as [|p' ps IH]; intros p; cbn; auto. intros (-> & i & q & -> & Li & En & H). split; auto. exists i, q. split; auto. split; [lia|]. rewrite K by auto. auto.
Qed.
Lemma dl_ahead_live (w : lworld T place) : wf w -> forall R0 L0, w_live w = L0 ++ R0 -> dl_ahead w (to_place (first_id R0)) (map At (map fst R0)).
Proof.
  intros H. induction R0 as [|[i v] R0 IH]; intros L0 E; cbn [map dl_ahead]; auto. split; auto. exists i, (to_place (first_id R0)). split; auto. split; [apply (live_lt w i v H); rewrite E; apply in_app_iff; right; now left|].
  split; [now apply (at_live to_place w L0 i v R0)|]. apply (IH (L0 ++ [(i, v)])). now rewrite <- app_assoc.
Qed.
Definition dl_Ahead (w : W) p ps := dwf w /\ dl_ahead (dw_list w) p ps.
Lemma dl_at_end w p : dl_Ahead w p [] -> l_more L p w = (Ok false, w).
Proof. intros [_ E]. cbn in E. now subst p. Qed.
Lemma dl_at_next w p p' r : dl_Ahead w p (p' :: r) -> p' = p /\ l_more L p w = (Ok true, w) /\ exists q, l_next L p w = (Ok q, w) /\ dl_Ahead w q r.
Proof. intros [H (-> & i & q & -> & Li & En & Hr)]. split; auto. split; auto. exists q. cbn. unfold pure, dl_next. rewrite En. split; auto. now split. Qed.
Lemma dl_from_start {A St} (give : place -> M (W * list place) A) (op : St -> A -> dprog (bool * St)) fuel st (w : W) vars :
  (forall p x, fst (snd (give p x)) = fst x) -> (forall st a, only (fun o => ~ dl_appends o /\ ~ dl_pops o) (op st a)) -> dwf w -> (length (w_live (dw_list w)) < fuel)%nat ->
  from_start L give op fuel st (w, vars) = over_at L give op (map At (map fst (w_live (dw_list w)))) st (w, vars).
Proof.
  intros Hg Ho H Lf. unfold from_start, bind. rewrite (on_list_same (l_iterate L) _ w vars) by reflexivity. destruct (exists_end w) eqn:Ee.
  - apply (each_over L dl_Ahead dl_at_end dl_at_next give Hg op).
    + intros st0 a [w0 vars0] p ps [H0 Ha]. split; [now apply dl_exec_wf|]. eapply dl_ahead_kept; [|exact Ha]. apply (dl_exec_kept (op st0 a) (w0, vars0)); auto.
    + split; auto. now apply (dl_ahead_live _ (proj1 H) _ []).
    + now rewrite !map_length.
  - destruct H as [_ E]. rewrite (E Ee). destruct fuel as [|fuel]; [lia|]. cbn [each map over_at]. unfold bind. rewrite (on_list_same (l_more L Nowhere) false w vars); [reflexivity|]. cbn. unfold pure. now rewrite Ee.
Qed.
Lemma dl_values {St} (op : St -> T -> dprog (bool * St)) st (w : W) vars : dwf w -> (forall st a, only (fun o => ~ dl_writes o) (op st a)) ->
  over_at L (give_value L) op (map At (map fst (w_live (dw_list w)))) st (w, vars) = exec (client L) (over op (values (dw_list w)) st) (w, vars).
Proof.
  intros H Ho. apply (over_values L op (fun w p v => dwf w /\ exists i, p = At i /\ (i < w_made (dw_list w))%nat /\ value_of i (dw_list w) = Some v)).
  - intros s p v (_ & i & -> & _ & E). cbn. unfold pure, dl_value. now rewrite E.
  - intros st0 a [w0 vars0] p v (H0 & i & -> & Li & E). cbn [fst] in *. split; [now apply dl_exec_wf|]. exists i. split; auto.
    pose proof (dl_exec_made (op st0 a) (w0, vars0)) as Lm. cbn [fst] in Lm. split; [lia|]. rewrite (dl_exec_values (op st0 a) (w0, vars0)); auto.
  - cbn [fst]. unfold values. assert (F : forall R0 L0, w_live (dw_list w) = L0 ++ R0 -> Forall2 (fun p v => dwf w /\ exists i, p = At i /\ (i < w_made (dw_list w))%nat /\ value_of i (dw_list w) = Some v) (map At (map fst R0)) (map snd R0)).
    { destruct H as [H He]. induction R0 as [|[i v] R0 IH]; intros L0 E; constructor; [|apply (IH (L0 ++ [(i, v)])); now rewrite <- app_assoc]. split; [now split|]. exists i. split; auto. split; [apply (live_lt _ i v H); rewrite E; apply in_app_iff; right; now left|].
      now apply (at_live to_place _ L0 i v R0). }
    now apply (F _ []).
Qed.
End DL.
