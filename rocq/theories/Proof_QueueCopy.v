(** DListQueue values that are copied, from DList values that are. *)
From Verif Require Import Base BaseLemmas Spec Trace Spec_List Nodes Model_DList Model_DListQueue Props_DList Spec_DListCopy Model_DListCopy Proof_DListCopy Spec_QueueCopy Model_QueueCopy.

Section Queues.
Context {T : Type}.
Variable zero : T.
Definition vop_of (o : uop T) : vop T unit :=
  match o with UNew => VNew | UCopy i => VCopy i | UAssign i j => VAssign i j | UCall i o => VCall i (dop_of o) end.
Definition vars_of (w : list (dnode T) * list dqueue) : list (dnode T) * list dlist := (fst w, map q_list (snd w)).
Lemma map_upd {A B} (f : A -> B) i x l : map f (upd i x l) = upd i (f x) (map f l).
Proof. revert i. induction l as [|a l IH]; intros [|i]; cbn; auto. now rewrite IH. Qed.
Lemma nth_error_map {A B} (f : A -> B) l i : nth_error (map f l) i = option_map f (nth_error l i).
Proof. revert i. induction l as [|a l IH]; intros [|i]; cbn; auto. Qed.
Lemma qvars_dlist o w : vars_step zero (vop_of o) (vars_of w) = (omap RObs (fst (qvars_step zero o w)), vars_of (snd (qvars_step zero o w))).
Proof.
  destruct w as [h qs]. unfold vars_of. destruct o; cbn [vop_of vars_step qvars_step fst snd].
  - rewrite map_app. reflexivity.
  - rewrite nth_error_map. destruct (nth_error qs i) as [q|]; cbn [option_map fst snd]; [rewrite map_app|]; reflexivity.
  - rewrite !nth_error_map. destruct (nth_error qs i), (nth_error qs j) as [q|]; cbn [option_map fst snd]; try reflexivity. now rewrite map_upd.
  - rewrite nth_error_map. destruct (nth_error qs i) as [q|]; cbn [option_map fst snd]; [|reflexivity].
    pose proof (queue_dlist zero o (h, q)) as E. cbn [fst snd] in E. destruct (dlist_step zero (dop_of o) (h, q_list q)) as [r [h' l]]. destruct E as [E1 E2].
    destruct (queue_step zero o (h, q)) as [r' s']. cbn [fst snd] in *. subst s'. cbn [fst snd]. now rewrite map_upd, E1.
Qed.
Lemma zlen_snoc_sub (xs : list T) v : zlen (xs ++ [v]) - zlen xs = 1.
Proof. unfold zlen. rewrite app_length. cbn [length]. lia. Qed.
Lemma zlen_tl_sub (x : T) xs : zlen (tl (x :: xs)) - zlen (x :: xs) = -1.
Proof. unfold zlen. cbn [tl length]. lia. Qed.
Lemma zlen_rl_sub (x : T) xs : zlen (removelast (x :: xs)) - zlen (x :: xs) = -1.
Proof.
  destruct (exists_last (l := x :: xs) ltac:(discriminate)) as (ys & y & ->). rewrite removelast_last. unfold zlen. rewrite app_length. cbn [length]. lia.
Qed.
Lemma q_ring_dlist o n c : ring_call (St := unit) zero (dop_of o) n c = (omap RObs (fst (q_ring_call zero o n c)), snd (q_ring_call zero o n c)).
Proof.
  pose proof (fun xs => queue_spec_dlist zero o xs) as Q.
  destruct o; destruct c as [[|x xs]|]; cbn [dop_of ring_call q_ring_call guarded andb]; try reflexivity;
    try (destruct (n =? 0) eqn:E0; try reflexivity).
  all: specialize (Q (x :: xs)); cbn [dop_of] in Q; destruct Q as [Q1 Q2].
  all: match goal with |- context[dlist_spec zero ?d ?z] => destruct (dlist_spec (St := unit) zero d z) as [r ys] eqn:E1 end;
    match goal with |- context[queue_spec zero ?d ?z] => destruct (queue_spec zero d z) as [r' ys'] eqn:E2 end;
    cbn [fst snd] in *; subst ys'; rewrite <- Q1; cbn [dlist_spec] in E1; injection E1 as _ E1; rewrite <- E1; f_equal; f_equal.
  all: try (change (x :: xs ++ [v]) with ((x :: xs) ++ [v])).
  all: rewrite ?zlen_snoc_sub, ?zlen_tl_sub, ?zlen_rl_sub; try lia.
  all: pose proof (zlen_rl_sub x xs) as L; cbn [removelast] in L; first [lia | unfold zlen; cbn [length]; lia].
Qed.
Lemma q_share_dlist o w : share_spec zero (vop_of o) w = (omap RObs (fst (q_share_spec zero o w)), snd (q_share_spec zero o w)).
Proof.
  destruct w as [cs vs]. destruct o; cbn [vop_of share_spec q_share_spec rings vars].
  - reflexivity.
  - destruct (nth_error vs i); reflexivity.
  - destruct (nth_error vs i), (nth_error vs j); reflexivity.
  - destruct (nth_error vs i) as [[[k|] n]|]; [| |reflexivity].
    + rewrite q_ring_dlist. destruct (q_ring_call zero o n (nth k cs None)) as [r [c n']]. reflexivity.
    + destruct (queue_spec_dlist zero o []) as [Q1 Q2]. destruct (dlist_spec (St := unit) zero (dop_of o) []) as [r ys]. destruct (queue_spec zero o []) as [r' ys'].
      cbn [fst snd] in *. subst ys' r. destruct ys; reflexivity.
Qed.
Lemma RObs_inj : forall a b : obs T, RObs (St := unit) a = RObs b -> a = b. Proof. intros a b E. now injection E. Qed.
Lemma map_omap_inj (xs ys : list (outcome (obs T))) : map (omap (RObs (St := unit))) xs = map (omap RObs) ys -> xs = ys.
Proof.
  revert ys. induction xs as [|x xs IH]; intros [|y ys] E; try discriminate E; auto. cbn in E. injection E as E1 E2. f_equal; auto. exact (omap_inj _ _ _ RObs_inj E1).
Qed.
Lemma qvars_run_dlist ops : forall w, run (vars_step zero) (map vop_of ops) (vars_of w) =
  (map (omap RObs) (fst (run (qvars_step zero) ops w)), vars_of (snd (run (qvars_step zero) ops w))).
Proof.
  induction ops as [|o ops IH]; intros w; [reflexivity|]. cbn [map run]. rewrite qvars_dlist. destruct (qvars_step zero o w) as [r w']. cbn [fst snd].
  rewrite IH. destruct (run (qvars_step zero) ops w'). reflexivity.
Qed.
Lemma q_share_run_dlist ops : forall w, run (share_spec zero) (map vop_of ops) w =
  (map (omap RObs) (fst (run (q_share_spec zero) ops w)), snd (run (q_share_spec zero) ops w)).
Proof.
  induction ops as [|o ops IH]; intros w; [reflexivity|]. cbn [map run]. rewrite q_share_dlist. destruct (q_share_spec zero o w) as [r w']. cbn [fst snd].
  rewrite IH. destruct (run (q_share_spec zero) ops w'). reflexivity.
Qed.
Lemma queue_run_dlist os : forall xs, run (dlist_spec (St := unit) zero) (map dop_of os) xs =
  (map (omap RObs) (fst (run (queue_spec zero) os xs)), snd (run (queue_spec zero) os xs)).
Proof.
  induction os as [|o os IH]; intros xs; [reflexivity|]. cbn [map run]. destruct (queue_spec_dlist zero o xs) as [Q1 Q2].
  destruct (dlist_spec (St := unit) zero (dop_of o) xs) as [r ys]. destruct (queue_spec zero o xs) as [r' ys']. cbn [fst snd] in *. subst.
  rewrite IH. destruct (run (queue_spec zero) os ys). reflexivity.
Qed.
Lemma calls_dlist i ops : calls_through i (map vop_of ops) = map dop_of (q_calls_through i ops).
Proof. induction ops as [|[| | |j o] ops IH]; cbn; auto. destruct (Nat.eqb j i); cbn; now rewrite IH. Qed.
Lemma shown_dlist i ops : forall rs : list (outcome (obs T)), shown_through i (map vop_of ops) (map (omap (RObs (St := unit))) rs) = map (omap RObs) (q_shown_through i ops rs).
Proof. induction ops as [|[| | |j o] ops IH]; intros [|r rs]; cbn; auto. destruct (Nat.eqb j i); cbn; now rewrite IH. Qed.
Lemma only_dlist i ops : forall w, q_only_user zero i ops w -> only_user zero i (map vop_of ops) w.
Proof.
  induction ops as [|o ops IH]; intros w; cbn [map q_only_user only_user]; auto. intros [U V]. rewrite q_share_dlist. cbn [snd]. split; [destruct o; exact U|auto].
Qed.
Lemma queues_shared ops : fst (run (qvars_step zero) ops ([], [])) = fst (run (q_share_spec zero) ops no_vars).
Proof.
  apply map_omap_inj. pose proof (vars_run zero (map vop_of ops) _ _ (wrel_init zero)) as [E _].
  change (([] : list (dnode T)), ([] : list dlist)) with (vars_of ([], [])) in E. rewrite qvars_run_dlist, q_share_run_dlist in E. exact E.
Qed.
Lemma queues_one before ops i xs : let w := snd (run (q_share_spec zero) before no_vars) in
  in_order w i xs -> q_only_user zero i ops w ->
  let rs := fst (run (qvars_step zero) ops (snd (run (qvars_step zero) before ([], [])))) in
  q_shown_through i ops rs = fst (run (queue_spec zero) (q_calls_through i ops) xs) /\
  in_order (snd (run (q_share_spec zero) ops w)) i (snd (run (queue_spec zero) (q_calls_through i ops) xs)).
Proof.
  cbv zeta. intros I U. pose proof (vars_run zero (map vop_of before) _ _ (wrel_init zero)) as [_ R].
  change (([] : list (dnode T)), ([] : list dlist)) with (vars_of ([], [])) in R. rewrite qvars_run_dlist, q_share_run_dlist in R. cbn [snd] in R.
  pose proof (proj1 (vars_run zero (map vop_of ops) _ _ R)) as E. rewrite qvars_run_dlist in E. cbn [fst] in E.
  assert (W : wf_shared (snd (run (q_share_spec zero) before no_vars))).
  { pose proof (wf_run zero (map vop_of before) no_vars) as W. rewrite q_share_run_dlist in W. apply W. intros j k n N. destruct j; discriminate N. }
  destruct (one_run zero i (map vop_of ops) _ xs W I (only_dlist _ _ _ U)) as [E1 E2]. rewrite <- E, calls_dlist, queue_run_dlist, shown_dlist in E1.
  rewrite q_share_run_dlist, calls_dlist, queue_run_dlist in E2. split; [exact (map_omap_inj _ _ E1)|exact E2].
Qed.
End Queues.
