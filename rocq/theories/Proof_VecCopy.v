From Verif Require Import Base BaseLemmas Spec Trace Proof_Mem Proof_Peek Model_Transform Model_Vector Spec_Vector Proof_Vector Proof_VectorOps
  Model_Stack Spec_VecCopy Model_VecCopy.
From Verif Require Proof_DListCopy Proof_SListCopy Proof_Transform Proof_TransformMem.

(** Nothing is changed but array a from position p on. *)
Definition kept {T} (m m' : mem T) (a : nat) (p : Z) : Prop :=
  (length m <= length m')%nat /\ (forall b, (b < length m)%nat -> b <> a -> nth b m' [] = nth b m []) /\
  (forall k, k < p -> zget (nth a m' []) k = zget (nth a m []) k) /\ zlen (nth a m' []) = zlen (nth a m []).
Definition same_place (s s' : slice) : Prop := s_arr s' = s_arr s /\ s_off s' = s_off s /\ s_cap s' = s_cap s.
Definition frame {T} (t : option Z) (m m' : mem T) (s s' : slice) : Prop :=
  match t with None => extends m m' | Some p => kept m m' (s_arr s) (s_off s + p) end /\
  (same_place s s' \/ (length m <= s_arr s')%nat).

Section Kept.
Context {T : Type}.
Implicit Types (m : mem T) (s t : slice).
Lemma kept_refl m a p : kept m m a p.
Proof. repeat split; auto. Qed.
Lemma kept_extends m m' a p : extends m m' -> (a < length m)%nat -> kept m m' a p.
Proof. intros [H1 H2] H. split; [auto|]. split; [auto|]. rewrite H2 by auto. auto. Qed.
Lemma kept_trans m1 m2 m3 a p : kept m1 m2 a p -> kept m2 m3 a p -> kept m1 m3 a p.
Proof.
  intros (A1 & A2 & A3 & A4) (B1 & B2 & B3 & B4). split; [lia|]. split; [|split].
  - intros b Hb N. rewrite B2 by (auto; lia). auto.
  - intros k Hk. rewrite B3; auto.
  - congruence.
Qed.
Lemma kept_same_except m m' a lo hi p : same_except m m' a lo hi -> 0 <= lo -> p <= lo -> kept m m' a p.
Proof.
  intros (A1 & A2 & A3 & A4) H0 H. split; [lia|]. split; [intros; symmetry; auto|]. split; [|auto].
  intros k Hk. destruct (Z_lt_le_dec k 0) as [N|N]; [rewrite !zget_lt0 by lia; auto|]. symmetry. apply A2; lia.
Qed.
Lemma kept_weaken m m' a p q : kept m m' a p -> q <= p -> kept m m' a q.
Proof. intros (A1 & A2 & A3 & A4) H. split; [auto|]. split; [auto|]. split; [|auto]. intros; apply A3; lia. Qed.
Lemma kept_wf m m' a p t : kept m m' a p -> wf_slice m t -> wf_slice m' t.
Proof.
  intros (A1 & A2 & A3 & A4) (H1 & H2 & H3 & H4). unfold wf_slice, arr_of in *. split; [lia|]. split; [auto|]. split; [auto|].
  destruct (Nat.eq_dec (s_arr t) a) as [E|N]; [rewrite E in *; lia|]. rewrite A2; auto.
Qed.
Lemma kept_get m m' a p t k : kept m m' a p -> wf_slice m t -> (s_arr t = a -> s_off t + k < p) -> zget (contents m' t) k = zget (contents m t) k.
Proof.
  intros Hk W Ho. pose proof (kept_wf _ _ _ _ _ Hk W) as W'. destruct (Z_lt_le_dec k 0) as [N|N]; [rewrite !zget_lt0 by lia; auto|].
  rewrite !zget_contents by auto. destruct (Z.ltb_spec k (s_len t)); auto. unfold arr_of. destruct Hk as (A1 & A2 & A3 & A4).
  destruct (Nat.eq_dec (s_arr t) a) as [E|NE].
  - rewrite E in *. apply A3. auto.
  - rewrite A2; auto. apply W.
Qed.
Lemma kept_contents m m' a p t : kept m m' a p -> wf_slice m t -> (s_arr t = a -> s_off t + s_len t <= p) -> contents m' t = contents m t.
Proof.
  intros Hk W Ho. pose proof (kept_wf _ _ _ _ _ Hk W) as W'. apply zlist_eq_len; [rewrite !zlen_contents; auto|].
  intros k Hr. rewrite zlen_contents in Hr by auto. apply (kept_get _ _ _ _ _ _ Hk W). intros E. specialize (Ho E). lia.
Qed.
Lemma kept_write m s pos xs p : wf_slice m s -> 0 <= pos -> pos + zlen xs <= s_cap s -> p <= s_off s + pos -> kept m (write_at m s pos xs) (s_arr s) p.
Proof.
  intros W Hp Hx Hl. pose proof W as (H1 & H2 & H3 & H4).
  apply (kept_same_except _ _ _ (s_off s + pos) (s_off s + pos + zlen xs)); [|lia|auto].
  apply same_except_write_at; auto; lia.
Qed.
End Kept.

Lemma nth_error_ext' {A} (l1 : list A) : forall l2, (forall i, nth_error l1 i = nth_error l2 i) -> l1 = l2.
Proof.
  induction l1 as [|a l1 IH]; intros [|b l2] H; auto; try (specialize (H O); discriminate).
  pose proof (H O) as H0. injection H0 as ->. f_equal. apply IH. intros i. exact (H (S i)).
Qed.

Section Gen.
Context {T K Op : Type}.
Variable make : K -> M (mem T) slice.
Variable call : Op -> cell T -> outcome (obs T) * cell T.
Variable made : K -> list T.
Variable spec : list T -> Op -> outcome (obs T) -> list T -> Prop.
Variable touched : Op -> list T -> option Z.
Variable kargs : K -> Prop.
Variable args : Op -> Prop.
Variable ksize : K -> Z.
Variable growth : Op -> Z.
Variable size : Z -> Z.
Variable bound : Z.
Hypothesis ksize_nonneg : forall k, 0 <= ksize k.
Hypothesis growth_nonneg : forall o, 0 <= growth o.
Hypothesis make_ok : forall k m, (0 < length m)%nat -> nth 0 m [] = [] -> kargs k -> exists s m', make k m = (Ok s, m') /\ wf_slice m' s /\ contents m' s = made k /\
  extends m m' /\ (s_arr s = length m \/ s = nil_slice) /\ size (zlen (made k)) <= ksize k.
Hypothesis call_ok : forall o m s, wf_slice m s -> args o -> size (s_len s) + growth o <= bound ->
  exists m' s', snd (call o (m, s)) = (m', s') /\ wf_slice m' s' /\ spec (contents m s) o (fst (call o (m, s))) (contents m' s') /\
    size (s_len s') <= size (s_len s) + growth o /\ frame (touched o (contents m s)) m m' s s'.
Let step := xvars_step make call.
Definition xargs (o : xop K Op) : Prop := match o with XNew k => kargs k | XCall _ o => args o | _ => True end.
Definition xgrowth (o : xop K Op) : Z := match o with XNew k => ksize k | XCall _ o => growth o | _ => 0 end.
Fixpoint xtotal (ops : list (xop K Op)) : Z := match ops with [] => 0 | o :: r => xgrowth o + xtotal r end.
Lemma xgrowth_nonneg o : 0 <= xgrowth o.
Proof. destruct o; cbn; auto; lia. Qed.

(** The invariant; nil slices refer to array 0, which is empty, as if to one
    array starting at 0. *)
Definition inv (b : Z) (w : xvars T) : Prop :=
  xvars_ok w /\ (0 < length (fst w))%nat /\ nth 0 (fst w) [] = [] /\
  (forall i s, nth_error (snd w) i = Some s -> (s_arr s = 0%nat -> s_off s = 0 /\ s_cap s = 0) /\ size (s_len s) <= b).

(** What one call does. *)
Lemma call_effect b w i o s : inv b w -> nth_error (snd w) i = Some s -> args o -> b + growth o <= bound ->
  let w' := snd (step (XCall i o) w) in
  inv (b + growth o) w' /\ length (snd w') = length (snd w) /\ spec (shown w i) o (fst (step (XCall i o) w)) (shown w' i) /\
  (forall j, j <> i -> nth_error (snd w') j = nth_error (snd w) j /\
     (forall k, (share w i j -> forall p, touched o (shown w i) = Some p -> k < p) -> zget (shown w' j) k = zget (shown w j) k)).
Proof.
  intros ((W & A) & L0 & N0 & I) Ei Ha Hb. destruct w as [m hs]. cbn [fst snd] in *. pose proof (I _ _ Ei) as [Z0 Sz]. pose proof (W _ _ Ei) as Ws.
  destruct (call_ok o m s Ws Ha ltac:(lia)) as (m' & s' & E & W' & Sp & Sz' & Fr). destruct (call o (m, s)) as [r c] eqn:Ec. cbn [fst snd] in *. subst c.
  assert (Es : step (XCall i o) (m, hs) = (r, (m', upd i s' hs))) by (unfold step; cbn [xvars_step fst snd]; rewrite Ei, Ec; reflexivity).
  rewrite Es. cbv zeta. cbn [fst snd]. assert (Li : (i < length hs)%nat) by (apply nth_error_Some; congruence).
  assert (Sh : shown (m, hs) i = contents m s) by (unfold shown; cbn [fst snd]; now rewrite Ei).
  assert (Si : shown (m', upd i s' hs) i = contents m' s') by (unfold shown; cbn [fst snd]; now rewrite nth_error_upd_eq by auto).
  assert (Kp : exists p, kept m m' (s_arr s) p) by (destruct Fr as [F _]; destruct (touched o (contents m s)); [eauto|exists 0; apply kept_extends; auto; apply Ws]).
  destruct Kp as (p0 & Kp). pose proof Kp as (K1 & K2 & K3 & K4).
  assert (J : forall j, j <> i -> nth_error (upd i s' hs) j = nth_error hs j) by (intros; apply nth_error_upd_ne; auto).
  assert (Cont : forall j t k, j <> i -> nth_error hs j = Some t -> (share (m, hs) i j -> forall p, touched o (contents m s) = Some p -> k < p) -> zget (contents m' t) k = zget (contents m t) k).
  { intros j t k Nj Ej Hk. destruct Fr as [F _]. destruct (touched o (contents m s)) as [p|].
    - apply (kept_get _ _ _ _ _ _ F (W _ _ Ej)). intros Ea. rewrite (proj1 (A _ _ _ _ Ej Ei Ea)). enough (k < p) by lia. apply Hk; auto. unfold share. cbn [fst snd]. now rewrite Ei, Ej.
    - f_equal. apply extends_contents; auto. apply (W _ _ Ej). }
  split; [|split; [|split]].
  - split; [split|split; [|split]]; cbn [fst snd].
    + intros j t Ej. destruct (Nat.eq_dec j i) as [->|Nj]; [rewrite nth_error_upd_eq in Ej by auto; now injection Ej as <-|]. rewrite J in Ej by auto. exact (kept_wf _ _ _ _ _ Kp (W _ _ Ej)).
    + assert (Q : forall j t, j <> i -> nth_error hs j = Some t -> s_arr s' = s_arr t -> s_off s' = s_off t /\ s_cap s' = s_cap t).
      { intros j t Nj Ej Ea. destruct Fr as [_ [(P1 & P2 & P3)|P]]; [rewrite P2, P3; apply (A i j); auto; congruence|]. destruct (W _ _ Ej) as (V & _). lia. }
      intros j1 j2 t1 t2 E1 E2 Ea. destruct (Nat.eq_dec j1 i) as [->|N1]; [rewrite nth_error_upd_eq in E1 by auto; injection E1 as <-|rewrite J in E1 by auto];
        (destruct (Nat.eq_dec j2 i) as [->|N2]; [rewrite nth_error_upd_eq in E2 by auto; injection E2 as <-|rewrite J in E2 by auto]); auto.
      * apply (Q j2); auto.
      * destruct (Q j1 t1); auto.
      * apply (A j1 j2); auto.
    + lia.
    + destruct (Nat.eq_dec 0 (s_arr s)) as [Ea|Na].
      * apply zlist_eq_len; [rewrite Ea, K4, <- Ea, N0; auto|]. intros k Hk. rewrite Ea, K4, <- Ea, N0 in Hk. change (zlen (@nil T)) with 0 in Hk. lia.
      * rewrite K2 by auto. auto.
    + intros j t Ej. destruct (Nat.eq_dec j i) as [->|Nj].
      * rewrite nth_error_upd_eq in Ej by auto. injection Ej as <-. split; [|lia]. intros Ea. destruct Fr as [_ [(P1 & P2 & P3)|P]]; [rewrite P2, P3; apply Z0; congruence|lia].
      * rewrite J in Ej by auto. destruct (I _ _ Ej) as [I1 I2]. split; [auto|]. pose proof (growth_nonneg o). lia.
  - apply upd_length.
  - rewrite Sh, Si. exact Sp.
  - intros j Nj. split; [auto|]. intros k Hk. unfold shown. cbn [fst snd]. rewrite J by auto. destruct (nth_error hs j) as [t|] eqn:Ej; [|auto].
    apply (Cont j); auto. intros Hs p Hp. apply Hk; auto. now rewrite Sh.
Qed.

Definition all_shown (w : xvars T) : list (list T) := map (contents (fst w)) (snd w).
Lemma nth_shown w i : nth_error (all_shown w) i = match nth_error (snd w) i with Some s => Some (contents (fst w) s) | None => None end.
Proof. unfold all_shown. rewrite nth_error_map. reflexivity. Qed.

Lemma inv_weaken b b' w : inv b w -> b <= b' -> inv b' w.
Proof. intros (A & B & C & D) H. split; [auto|]. split; [auto|]. split; [auto|]. intros i s E. destruct (D _ _ E). split; [auto|lia]. Qed.

Lemma new_effect b w k : inv b w -> 0 <= b -> kargs k ->
  let w' := snd (step (XNew k) w) in
  inv (b + ksize k) w' /\ fst (step (XNew k) w) = Ok ONone /\ all_shown w' = all_shown w ++ [made k].
Proof.
  intros ((W & A) & L0 & N0 & I) Hb Ha. destruct w as [m hs]. cbn [fst snd] in *.
  destruct (make_ok k m L0 N0 Ha) as (s & m' & E & Ws & Cs & X & Pl & Sz). unfold step. cbn [xvars_step fst snd]. rewrite E. cbn [fst snd].
  assert (W0 : forall t, wf_slice m t -> contents m' t = contents m t) by (intros t (V & _); apply extends_contents; auto).
  assert (Ls : s_len s = zlen (made k)) by (rewrite <- Cs; symmetry; apply zlen_contents; auto).
  assert (N : forall i t, nth_error (hs ++ [s]) i = Some t -> nth_error hs i = Some t \/ t = s).
  { intros i t Et. destruct (Nat.lt_ge_cases i (length hs)); [rewrite nth_error_app1 in Et by auto; auto|]. rewrite nth_error_app2 in Et by auto.
    destruct (i - length hs)%nat as [|[|?]]; cbn in Et; try discriminate. injection Et as <-. auto. }
  assert (P0 : s_arr s = 0%nat -> s_off s = 0 /\ s_cap s = 0) by (destruct Pl as [Pl| ->]; [lia|split; reflexivity]).
  assert (Q : forall i t, nth_error hs i = Some t -> s_arr s = s_arr t -> s_off s = s_off t /\ s_cap s = s_cap t).
  { intros i t Et Ea. destruct Pl as [Pl|Pl]; [destruct (W _ _ Et) as (V & _); lia|]. rewrite Pl in *. cbn in *. destruct (I _ _ Et) as [Iz _]. destruct Iz; auto. }
  split; [|split; [reflexivity|]].
  - split; [split|split; [|split]]; cbn [fst snd].
    + intros i t Et. destruct (N _ _ Et) as [Et'| ->]; [exact (extends_wf _ _ _ X (W _ _ Et'))|auto].
    + intros i j t u Et Eu Ea. destruct (N _ _ Et) as [Et'| ->], (N _ _ Eu) as [Eu'| ->]; auto.
      * apply (A i j); auto.
      * destruct (Q i t); auto.
      * apply (Q j); auto.
    + destruct X as [X _]. lia.
    + destruct X as [_ X]. rewrite X; auto.
    + intros i t Et. destruct (N _ _ Et) as [Et'| ->]; [destruct (I _ _ Et'); pose proof (ksize_nonneg k); split; [auto|lia]|split; [auto|rewrite Ls; lia]].
  - unfold all_shown. cbn [fst snd]. rewrite map_app. cbn. rewrite Cs. f_equal. apply map_ext_in. intros t Ht. apply W0. apply In_nth_error in Ht. destruct Ht as (i & Hi). exact (W _ _ Hi).
Qed.

Lemma step_inv b w o : inv b w -> 0 <= b -> xargs o -> b + xgrowth o <= bound -> inv (b + xgrowth o) (snd (step o w)).
Proof.
  intros I Hb Ha Hg. destruct o as [k|i|i j|i o]; cbn [xargs xgrowth] in *.
  - now apply new_effect.
  - rewrite Z.add_0_r. unfold step. cbn [xvars_step]. destruct (nth_error (snd w) i) as [s|] eqn:Ei; [|exact I]. destruct I as ((W & A) & L0 & N0 & I).
    assert (N : forall i' t, nth_error (snd w ++ [s]) i' = Some t -> exists i'', nth_error (snd w) i'' = Some t).
    { intros i' t Et. destruct (Nat.lt_ge_cases i' (length (snd w))); [rewrite nth_error_app1 in Et by auto; eauto|]. rewrite nth_error_app2 in Et by auto.
      destruct (i' - length (snd w))%nat as [|[|?]]; cbn in Et; try discriminate. injection Et as <-. eauto. }
    split; [split|split; [|split]]; cbn [fst snd]; auto.
    + intros a t Et. destruct (N _ _ Et) as (a' & Et'). eauto.
    + intros a c t u Et Eu. destruct (N _ _ Et) as (a' & Et'), (N _ _ Eu) as (c' & Eu'). eauto.
    + intros a t Et. destruct (N _ _ Et) as (a' & Et'). eauto.
  - rewrite Z.add_0_r. unfold step. cbn [xvars_step]. destruct (nth_error (snd w) i) as [s0|] eqn:Ei; [|exact I]. destruct (nth_error (snd w) j) as [s|] eqn:Ej; [|exact I]. destruct I as ((W & A) & L0 & N0 & I).
    assert (Li : (i < length (snd w))%nat) by (apply nth_error_Some; congruence).
    assert (N : forall i' t, nth_error (upd i s (snd w)) i' = Some t -> exists i'', nth_error (snd w) i'' = Some t).
    { intros i' t Et. destruct (Nat.eq_dec i' i) as [->|Ne]; [rewrite nth_error_upd_eq in Et by auto; injection Et as <-; eauto|]. rewrite nth_error_upd_ne in Et by auto. eauto. }
    split; [split|split; [|split]]; cbn [fst snd]; auto.
    + intros a t Et. destruct (N _ _ Et) as (a' & Et'). eauto.
    + intros a c t u Et Eu. destruct (N _ _ Et) as (a' & Et'), (N _ _ Eu) as (c' & Eu'). eauto.
    + intros a t Et. destruct (N _ _ Et) as (a' & Et'). eauto.
  - destruct (nth_error (snd w) i) as [s|] eqn:Ei.
    + destruct (call_effect b w i o s I Ei Ha Hg) as (I' & _). exact I'.
    + unfold step. cbn [xvars_step]. rewrite Ei. apply (inv_weaken b); auto. pose proof (growth_nonneg o). cbn. lia.
Qed.

Lemma polite_step b w o : inv b w -> 0 <= b -> xargs o -> b + xgrowth o <= bound -> polite_at touched o w ->
  own_copy made spec (all_shown w) o (fst (step o w)) (all_shown (snd (step o w))).
Proof.
  intros I Hb Ha Hg P. destruct o as [k|i|i j|i o]; cbn [xargs xgrowth own_copy] in *.
  - destruct (new_effect b w k I Hb Ha) as (_ & H1 & H2). auto.
  - rewrite nth_shown. unfold step. cbn [xvars_step]. destruct (nth_error (snd w) i) as [s|] eqn:Ei; cbn [fst snd]; [|auto]. split; [auto|]. unfold all_shown. cbn [fst snd]. now rewrite map_app.
  - rewrite !nth_shown. unfold step. cbn [xvars_step]. destruct (nth_error (snd w) i) as [s0|] eqn:Ei; cbn [fst snd]; [|auto]. destruct (nth_error (snd w) j) as [s|] eqn:Ej; cbn [fst snd]; [|auto].
    split; [auto|]. unfold all_shown. cbn [fst snd]. apply Proof_SListCopy.map_upd.
  - rewrite nth_shown. destruct (nth_error (snd w) i) as [s|] eqn:Ei.
    + destruct (call_effect b w i o s I Ei Ha Hg) as (I' & Len & Sp & Oth). set (w' := snd (step (XCall i o) w)) in *.
      assert (Si : shown w i = contents (fst w) s) by (unfold shown; now rewrite Ei). rewrite Si in Sp.
      exists (shown w' i). split; [exact Sp|].
      assert (Li : (i < length (snd w))%nat) by (apply nth_error_Some; congruence).
      apply nth_error_ext'. intros j. destruct (Nat.eq_dec j i) as [->|Nj].
      * rewrite nth_error_upd_eq by (unfold all_shown; rewrite map_length; auto). rewrite nth_shown. unfold shown.
        destruct (nth_error (snd w') i) eqn:E'; [auto|]. apply nth_error_None in E'. lia.
      * rewrite nth_error_upd_ne by auto. rewrite !nth_shown. destruct (Oth j Nj) as [E' C']. rewrite E'. destruct (nth_error (snd w) j) as [t|] eqn:Ej; [|auto]. f_equal.
        unfold shown in C'. rewrite E', Ej in C'. destruct I as ((W & A) & _). pose proof (W _ _ Ej) as Wt. destruct I' as ((W' & _) & _). pose proof (W' _ _ E') as Wt'.
        apply zlist_eq_len; [rewrite !zlen_contents; auto|]. intros k Hk. apply C'. intros Sh p Hp. specialize (P j p Nj Sh Hp). unfold shown in P. rewrite Ej in P. rewrite zlen_contents in * by auto. lia.
    + unfold step. cbn [xvars_step]. rewrite Ei. auto.
Qed.

Lemma inv_start : inv 0 xstart.
Proof. split; [split|split; [|split]]; cbn; auto; intros [|?]; discriminate. Qed.

Lemma run_inv ops : forall b w, inv b w -> 0 <= b -> Forall xargs ops -> b + xtotal ops <= bound -> inv (b + xtotal ops) (snd (run step ops w)).
Proof.
  induction ops as [|o ops IH]; intros b w I Hb Fa Hg; cbn [run xtotal] in *; [now rewrite Z.add_0_r|].
  inversion Fa as [|? ? Ha Fa']; subst. pose proof (xgrowth_nonneg o). assert (0 <= xtotal ops) by (clear - growth_nonneg ksize_nonneg; induction ops; cbn; auto; try lia; pose proof (xgrowth_nonneg a); lia).
  pose proof (step_inv b w o I Hb Ha ltac:(lia)) as I'. destruct (step o w) as [r w'] eqn:Es. cbn [fst snd] in *. specialize (IH _ _ I' ltac:(lia) Fa' ltac:(lia)).
  destruct (run step ops w') as [rs w'']. cbn [snd] in *. now replace (b + (xgrowth o + xtotal ops)) with (b + xgrowth o + xtotal ops) by lia.
Qed.

Lemma run_polite ops : forall b w, inv b w -> 0 <= b -> Forall xargs ops -> b + xtotal ops <= bound -> polite_run touched step ops w ->
  accepts (own_copy made spec) (all_shown w) ops (fst (run step ops w)) (all_shown (snd (run step ops w))).
Proof.
  induction ops as [|o ops IH]; intros b w I Hb Fa Hg P; cbn [run xtotal polite_run] in *; [constructor|].
  inversion Fa as [|? ? Ha Fa']; subst. destruct P as [P1 P2]. pose proof (xgrowth_nonneg o). assert (0 <= xtotal ops) by (clear - growth_nonneg ksize_nonneg; induction ops; cbn; auto; try lia; pose proof (xgrowth_nonneg a); lia).
  pose proof (step_inv b w o I Hb Ha ltac:(lia)) as I'. pose proof (polite_step b w o I Hb Ha ltac:(lia) P1) as Q. destruct (step o w) as [r w'] eqn:Es. cbn [fst snd] in *. specialize (IH _ _ I' ltac:(lia) Fa' ltac:(lia) P2).
  destruct (run step ops w') as [rs w'']. cbn [fst snd] in *. econstructor; eauto.
Qed.
End Gen.

Section Vec.
Context {T : Type}.
Variable zero : T.
Variable grow : Z -> Z -> Z.
Implicit Types (m : mem T) (s t : slice).

Lemma frame_same o m s : (match o with Some p => True | None => True end) -> wf_slice m s -> frame o m m s s.
Proof. intros _ W. split; [|left; repeat split; auto]. destruct o; [apply kept_refl|apply extends_refl]. Qed.

Lemma shrunk_frame m m' s s' l' p : wf_slice m s -> shrunk zero m m' s s' l' -> p <= zlen l' -> (forall k, k < p -> zget l' k = zget (contents m s) k) ->
  frame (Some p) m m' s s'.
Proof.
  intros W (W' & C' & A1 & A2 & A3 & Z & SE) Hp Hk. split; [|left; repeat split; auto].
  destruct SE as (E1 & E2 & E3 & E4). pose proof W as (V1 & V2 & V3 & V4).
  assert (Ws : wf_slice m' s) by (unfold wf_slice, arr_of in *; rewrite <- E3; repeat split; auto; lia).
  split; [lia|]. split; [intros; symmetry; auto|]. split; [|auto]. intros k Hlt.
  destruct (Z_lt_le_dec k (s_off s)) as [L|L].
  { destruct (Z_lt_le_dec k 0); [rewrite !zget_lt0 by lia; auto|]. symmetry. apply E2; lia. }
  destruct (Z_lt_le_dec k (s_off s + s_len s)) as [L'|L']; [|symmetry; apply E2; lia].
  assert (Q : zget (contents m' s) (k - s_off s) = zget (contents m s) (k - s_off s)).
  { rewrite Z, zget_app_l by lia. apply Hk. lia. }
  rewrite !zget_contents in Q by (auto; lia). destruct (Z.ltb_spec (k - s_off s) (s_len s)); [|lia]. unfold arr_of in Q. now replace (s_off s + (k - s_off s)) with k in Q by lia.
Qed.

Lemma append_kept s xs m p : wf_slice m s -> p <= s_len s ->
  exists s' m', append_list zero grow s xs m = (Ok s', m') /\ kept m m' (s_arr s) (s_off s + p) /\ (same_place s s' \/ (length m <= s_arr s')%nat) /\ wf_slice m' s' /\ s_len s' = s_len s + zlen xs.
Proof.
  intros W Hp. destruct (append_list_ok zero grow s xs m W) as (s' & m' & E & W' & C & L & R). exists s', m'. split; [auto|]. pose proof (zlen_nonneg xs).
  destruct (Z.leb_spec (s_len s + zlen xs) (s_cap s)).
  - destruct R as (R1 & R2 & R3 & ->). split; [|split; [left; repeat split; auto|auto]]. apply kept_write; auto; try lia. apply W.
  - destruct R as (R1 & R2 & R3 & R4). split; [apply kept_extends; auto; apply W|]. split; [right; lia|auto].
Qed.

Lemma remove_frame i j m s : wf_slice m s -> frame (if 0 <=? i then Some i else None) m (fst (snd (Vector_RemoveRange zero grow i j (m, s)))) s (snd (snd (Vector_RemoveRange zero grow i j (m, s)))).
Proof.
  intros W. pose proof W as (V1 & V2 & V3 & V4).
  set (Q := fun x : outcome unit * cell T => frame (if 0 <=? i then Some i else None) m (fst (snd x)) s (snd (snd x))).
  change (Q (Vector_RemoveRange zero grow i j (m, s))). unfold Vector_RemoveRange. rewrite bind_get_hdr.
  assert (Q0 : forall r, Q (r, (m, s))) by (intros; apply frame_same; auto; destruct (0 <=? i); auto).
  destruct (Z_le_gt_dec 0 i) as [Hi|Hi].
  2:{ unfold reslice_to. rewrite bind_lift_o_panic by (apply reslice_panic; lia). apply Q0. }
  destruct (Z_le_gt_dec i (s_cap s)) as [Hc|Hc].
  2:{ unfold reslice_to. rewrite bind_lift_o_panic by (apply reslice_panic; lia). apply Q0. }
  unfold reslice_to. rewrite (bind_lift_o _ _ _ _ (reslice_ok s 0 i ltac:(lia) Hc)). set (p := mkSlice _ _ _ _).
  assert (Wp : wf_slice m p) by (apply (wf_reslice m s 0 i); auto; lia).
  unfold reslice_from at 1. destruct (reslice s j (s_len s)) as [q| |] eqn:Eq; cbn [lift_o].
  2,3: apply Q0.
  rewrite (bind_lift_o _ _ _ q) by auto.
  destruct (append_kept p (contents m q) m (s_len p) Wp ltac:(lia)) as (v & m1 & E & Kp & Pl & Wv & Lv).
  rewrite (bind_lift_mem (append_slice zero grow p q) _ _ _ v m1) by exact E. rewrite bind_set_hdr.
  assert (Ps : s_arr p = s_arr s /\ s_off p + s_len p = s_off s + i /\ s_off p = s_off s /\ s_len p = i) by (cbn; lia). destruct Ps as (P1 & P2 & P3 & P4). rewrite P1, P2 in Kp.
  assert (Pl' : same_place s v \/ (length m <= s_arr v)%nat) by (destruct Pl as [(Q1 & Q2 & Q3)|]; auto; left; repeat split; cbn in *; congruence || lia).
  pose proof (zlen_nonneg (contents m q)) as Zq.
  unfold reslice_from. destruct (Z_le_gt_dec (s_len v) (s_len s)) as [Hv|Hv].
  2:{ rewrite bind_lift_o_panic by (apply reslice_panic; lia). unfold Q. rewrite (proj2 (Z.leb_le 0 i) Hi). split; auto. }
  rewrite (bind_lift_o _ _ _ _ (reslice_ok s (s_len v) (s_len s) ltac:(lia) ltac:(lia))). set (t := mkSlice _ (s_off s + s_len v) _ _).
  assert (Ws1 : wf_slice m1 s) by (exact (kept_wf _ _ _ _ _ Kp W)).
  assert (Wt : wf_slice m1 t) by (apply (wf_reslice m1 s (s_len v) (s_len s)); auto; lia).
  unfold lift_mem, on_slice, FillZero, Q. cbn [fst snd]. rewrite (proj2 (Z.leb_le 0 i) Hi). split; auto.
  eapply kept_trans; [exact Kp|]. apply (kept_write m1 t 0); auto; [lia| |cbn; lia].
  rewrite zlen_repeat. pose proof (zlen_contents m1 t Wt) as Lt. unfold zlen in Lt. destruct Wt as (_ & _ & Wt & _). lia.
Qed.

Lemma keep_while_app {A} (p : A -> bool) l : exists r, filter p l = keep_while p l ++ r /\ exists r', l = keep_while p l ++ r'.
Proof.
  induction l as [|x l (r & E & r' & E')]; cbn; [exists []; split; [auto|exists []; auto]|].
  destruct (p x); [|exists (filter p l); split; [auto|exists (x :: l); auto]]. exists r. rewrite E. split; [auto|]. exists r'. rewrite <- app_comm_cons. congruence.
Qed.

Lemma zlen_snoc' (l : list T) x : zlen (l ++ [x]) = zlen l + 1.
Proof. rewrite zlen_app. reflexivity. Qed.
Lemma observe_snd {S A} (f : A -> obs T) (p : M S A) (c : S) : snd (observe f p c) = snd (p c).
Proof. unfold observe. now destruct (p c). Qed.

Lemma vec_frame o m s : wf_slice m s -> vec_args o -> s_len s + vec_growth o <= max_int ->
  frame (vec_touched o (contents m s)) m (fst (snd (vec_step zero grow o (m, s)))) s (snd (snd (vec_step zero grow o (m, s)))).
Proof.
  intros W Ha Hg. pose proof W as (V1 & V2 & V3 & V4). pose proof (zlen_contents m s W) as Zl.
  destruct o as [x|xs|i xs| | | |i|i x|i|i j|i n|p| | | |r|]; cbn [vec_step vec_touched vec_args vec_growth] in *; rewrite observe_snd.
  - rewrite Zl. destruct (append_kept s [x] m (s_len s) W ltac:(lia)) as (s' & m' & E & Kp & Pl & _). unfold Vector_PushBack. rewrite bind_get_hdr. rewrite (bind_lift_mem _ _ _ _ _ _ E). split; auto.
  - rewrite Zl. destruct (lit_ok m xs) as (E0 & W0 & C0 & X0). set (x := mkSlice _ _ _ _) in *. rewrite (bind_lift_mem _ _ _ _ _ _ E0).
    unfold Vector_Append. rewrite bind_get_hdr.
    destruct (append_kept s (contents (m ++ [xs]) x) _ (s_len s) (extends_wf _ _ _ X0 W) ltac:(lia)) as (s' & m' & E & Kp & Pl & _).
    rewrite (bind_lift_mem (append_slice zero grow s x) _ _ _ s' m') by exact E. split; cbn [fst snd].
    + eapply kept_trans; [apply kept_extends; [exact X0|auto]|exact Kp].
    + destruct Pl as [Pl|Pl]; auto. right. exact (Nat.le_trans _ _ _ (proj1 X0) Pl).
  - destruct (lit_ok m xs) as (E0 & W0 & C0 & X0). set (x := mkSlice _ _ _ _) in *. rewrite (bind_lift_mem _ _ _ _ _ _ E0). pose proof (extends_wf _ _ _ X0 W) as W1. rewrite Zl.
    destruct (Z.leb_spec 0 i) as [I1|I1], (Z.leb_spec i (s_len s)) as [I2|I2]; cbn [andb].
    + destruct (Proof_VectorOps.Insert_ok zero i x _ s W1 W0 ltac:(lia) ltac:(simpl; lia)) as (m' & s' & E & W' & C' & R).
      { left. cbn. lia. }
      rewrite E. cbn [fst snd]. destruct (Z.leb_spec (s_len s + s_len x) (s_cap s)).
      * destruct R as (R1 & R2 & R3 & R4). split; [|left; repeat split; auto]. eapply kept_trans; [apply kept_extends; [exact X0|auto]|]. apply (kept_same_except _ _ _ _ _ _ R4); lia.
      * destruct R as (R1 & R2). split; [apply kept_extends; auto; eapply extends_trans; eauto|]. right. destruct X0. lia.
    + destruct (Insert_panic zero i x _ s W1 W0 Ha ltac:(lia) ltac:(simpl; lia)) as (m' & E & X'). rewrite E. cbn [fst snd]. split; [eapply extends_trans; eauto|left; repeat split; auto].
    + destruct (Insert_panic zero i x _ s W1 W0 Ha ltac:(lia) ltac:(simpl; lia)) as (m' & E & X'). rewrite E. cbn [fst snd]. split; [eapply extends_trans; eauto|left; repeat split; auto].
    + destruct (Insert_panic zero i x _ s W1 W0 Ha ltac:(lia) ltac:(simpl; lia)) as (m' & E & X'). rewrite E. cbn [fst snd]. split; [eapply extends_trans; eauto|left; repeat split; auto].
  - destruct (list_snoc (contents m s)) as [C|(l' & x & C)].
    + rewrite (PopBack_panic zero m s W C). apply frame_same; auto. now destruct (_ : option Z).
    + destruct (PopBack_ok zero m s x l' W C) as (m' & s' & E & Sh). rewrite E. cbn [fst snd]. rewrite C, zlen_snoc'. pose proof (zlen_nonneg l'). destruct (Z.eqb_spec (zlen l' + 1) 0); [lia|].
      apply (shrunk_frame _ _ _ _ _ _ W Sh); [lia|]. intros k Hk. rewrite C. symmetry. apply zget_app_l. lia.
  - assert (Et : Vector_TryPopBack zero (m, s) = (if s_len s =? 0 then ret (zero, false) else e <- Vector_PopBack zero ;; ret (e, true)) (m, s)) by reflexivity. rewrite Et.
    destruct (list_snoc (contents m s)) as [C|(l' & x & C)].
    + rewrite C in *. change (zlen (@nil T)) with 0 in *. rewrite <- Zl. cbn. apply frame_same; auto.
    + destruct (PopBack_ok zero m s x l' W C) as (m' & s' & E & Sh). rewrite <- Zl, C, zlen_snoc'. pose proof (zlen_nonneg l'). destruct (Z.eqb_spec (zlen l' + 1) 0); [lia|].
      rewrite (bind_Ok _ _ _ _ _ E). cbn [fst snd].
      apply (shrunk_frame _ _ _ _ _ _ W Sh); [lia|]. intros k Hk. rewrite C. symmetry. apply zget_app_l. lia.
  - unfold Vector_Back. rewrite bind_get_hdr. unfold lift_mem. cbn [fst snd]. destruct (zget (contents m s) (s_len s - 1)) eqn:G; [rewrite (sload_ok _ _ _ _ W G)|rewrite (sload_panic _ _ _ W G)]; apply frame_same; auto.
  - unfold Vector_At. rewrite bind_get_hdr. unfold lift_mem. cbn [fst snd]. destruct (zget (contents m s) i) eqn:G; [rewrite (sload_ok _ _ _ _ W G)|rewrite (sload_panic _ _ _ W G)]; apply frame_same; auto.
  - destruct (zget (contents m s) i) as [y|] eqn:G.
    + pose proof (zget_Some_range _ _ _ G).
      assert (E : Vector_Set i x (m, s) = (Ok tt, (write_at m s 0 (zupd (contents m s) i x), s))).
      { unfold Vector_Set. rewrite bind_get_hdr. apply lift_mem_ok, sstore_ok; auto. lia. }
      rewrite E. cbn [fst snd]. split; [|left; repeat split; auto].
      destruct (same_except_write m s (zupd (contents m s) i x) W ltac:(rewrite zlen_zupd; auto)) as (E1 & E2 & E3 & E4).
      split; [lia|]. split; [intros; symmetry; auto|]. split; [|auto]. intros k Hk.
      destruct (Z_lt_le_dec k (s_off s)) as [L|L].
      { destruct (Z_lt_le_dec k 0); [rewrite !zget_lt0 by lia; auto|]. symmetry. apply E2; lia. }
      rewrite write_at_nth by auto. rewrite zget_zwrite by (rewrite ?zlen_zupd; lia). destruct (_ && _) eqn:B; [|reflexivity].
      rewrite zget_zupd by lia. replace (k - (s_off s + 0)) with (k - s_off s) by lia. destruct (Z.eqb_spec i (k - s_off s)); [lia|].
      rewrite zget_contents by (auto; lia). destruct (Z.ltb_spec (k - s_off s) (s_len s)); [|lia]. unfold arr_of. now replace (s_off s + (k - s_off s)) with k by lia.
    + apply zget_None in G. assert (E : Vector_Set i x (m, s) = (Panic, (m, s))).
      { unfold Vector_Set. rewrite bind_get_hdr. apply lift_mem_panic, sstore_panic; auto. lia. }
      rewrite E. apply frame_same; auto.
  - apply remove_frame; auto.
  - apply remove_frame; auto.
  - apply remove_frame; auto.
  - destruct (VRemoveIf_ok zero (fun (u : unit) (y : T) => (p y, u)) tt m s W) as (m' & s' & E & Sh). rewrite E. cbn [fst snd]. rewrite Proof_Transform.reject_filter in Sh.
    destruct (keep_while_app (fun x => negb (p x)) (contents m s)) as (r & E1 & r' & E2).
    apply (shrunk_frame _ _ _ _ _ _ W Sh).
    + rewrite E1, zlen_app. pose proof (zlen_nonneg r). lia.
    + intros k Hk. rewrite E1. rewrite E2 at 2. rewrite !zget_app_l; auto.
  - apply frame_same; auto.
  - apply frame_same; auto.
  - destruct (Clear_ok zero m s W) as (m' & s' & E & Sh). rewrite E. cbn [fst snd]. apply (shrunk_frame _ _ _ _ _ _ W Sh); [change (zlen (@nil T)) with 0; lia|]. intros k Hk. rewrite !zget_lt0 by lia. auto.
  - destruct (Reserve_ok zero r m s W) as (m' & s' & E & W' & C' & _ & X & R1 & R2). rewrite E. cbn [fst snd]. split; [auto|].
    destruct (Z_le_gt_dec r (s_cap s)); [left; destruct (R1 ltac:(lia)) as [_ ->]; repeat split; auto|right; rewrite R2; lia].
  - destruct (Shrink_ok zero grow m s W) as (m' & s' & E & W' & C' & X & R1 & R2). rewrite E. cbn [fst snd]. split; [auto|].
    destruct (Z.eq_dec (s_cap s) (s_len s)) as [Q|Q]; [left; destruct (R1 Q) as [_ ->]; repeat split; auto|right; apply R2; lia].
Qed.
End Vec.

Section VecInst.
Context {T : Type}.
Variable zero : T.
Variable grow : Z -> Z -> Z.
Implicit Types (m : mem T) (s t : slice).
Definition v_kargs (k : vec_make T) : Prop := match k with VMakeCap c => 0 <= c | _ => True end.
Definition v_ksize (k : vec_make T) : Z := match k with VOf xs => zlen xs | _ => 0 end.

Lemma v_ksize_nonneg k : 0 <= v_ksize k.
Proof. destruct k; cbn; try lia. apply zlen_nonneg. Qed.
Lemma wf_nil m : (0 < length m)%nat -> wf_slice m nil_slice.
Proof. intros H. unfold wf_slice, nil_slice, arr_of. cbn. pose proof (zlen_nonneg (nth 0 m [])). lia. Qed.
Lemma v_make_ok k m : (0 < length m)%nat -> nth 0 m [] = [] -> v_kargs k -> exists s m', vec_new zero k m = (Ok s, m') /\ wf_slice m' s /\ contents m' s = vec_made k /\
  extends m m' /\ (s_arr s = length m \/ s = nil_slice) /\ zlen (vec_made k) <= v_ksize k.
Proof.
  intros L0 _ Hk. destruct k as [| |c|xs]; cbn [vec_new v_kargs vec_made v_ksize] in *.
  - eexists _, _. split; [reflexivity|]. split; [now apply wf_nil|]. split; [apply contents_nil|]. split; [apply extends_refl|]. split; [auto|reflexivity].
  - destruct (lit_ok m (@nil T)) as (E & W & C & X). eexists _, _. split; [exact E|]. split; [exact W|]. split; [exact C|]. split; [exact X|]. split; [left; reflexivity|reflexivity].
  - destruct (Proof_TransformMem.fresh_make zero m 0 c ltac:(lia)) as (s & m1 & E' & (X & W & _) & C & L & Cp & A).
    exists s, m1. split; [exact E'|]. split; [auto|]. split; [exact C|]. split; [auto|]. split; [left; exact A|reflexivity].
  - destruct (lit_ok m xs) as (E & W & C & X). eexists _, _. split; [rewrite (bind_Ok _ _ _ _ _ E); reflexivity|]. split; [exact W|]. split; [exact C|]. split; [exact X|]. split; [left; reflexivity|reflexivity].
Qed.
Lemma v_call_ok o m s : wf_slice m s -> vec_args o -> s_len s + vec_growth o <= max_int ->
  exists m' s', snd (vec_step zero grow o (m, s)) = (m', s') /\ wf_slice m' s' /\ vec_spec zero (contents m s) o (fst (vec_step zero grow o (m, s))) (contents m' s') /\
    s_len s' <= s_len s + vec_growth o /\ frame (vec_touched o (contents m s)) m m' s s'.
Proof.
  intros W Ha Hg. pose proof (zlen_contents m s W) as Zl.
  destruct (vec_step_ok zero grow o (contents m s) (m, s)) as (l' & Sp & (W' & C') & Len); [split; auto|auto|lia|].
  pose proof (vec_frame zero grow o m s W Ha Hg) as F. destruct (vec_step zero grow o (m, s)) as [r [m' s']]. cbn [fst snd] in *. unfold c_contents in C'. cbn [fst snd] in C'. subst l'.
  exists m', s'. split; [auto|]. split; [auto|]. split; [auto|]. split; [|auto]. rewrite !zlen_contents in Len by auto. auto.
Qed.

Definition vinv := @inv T (fun z => z).
Lemma vx_total_eq ops : vx_total ops = xtotal v_ksize (@vec_growth T) ops.
Proof. induction ops as [|o ops IH]; cbn; auto. now rewrite IH. Qed.
Lemma vx_args_eq ops : Forall (@vx_args T) ops -> Forall (xargs v_kargs (@vec_args T)) ops.
Proof. intros H. eapply Forall_impl; [|exact H]. intros [[]| | |]; cbn; auto. Qed.
Lemma vx_growth_nonneg (o : xop (vec_make T) (vec_op T)) : 0 <= vx_growth o.
Proof. destruct o as [[]| | |]; cbn; try lia; try apply zlen_nonneg. apply vec_growth_nonneg. Qed.
Lemma vx_run ops : Forall vx_args ops -> vx_total ops <= max_int -> vinv (vx_total ops) (snd (run (vx_step zero grow) ops xstart)).
Proof.
  intros Fa Ht. rewrite vx_total_eq in *.
  exact (run_inv (vec_new zero) (vec_step zero grow) vec_made (vec_spec zero) vec_touched v_kargs vec_args v_ksize vec_growth (fun z => z) max_int v_ksize_nonneg vec_growth_nonneg v_make_ok v_call_ok
    ops 0 xstart (inv_start _) ltac:(lia) (vx_args_eq _ Fa) ltac:(lia)).
Qed.
Lemma vx_effect b w i o s : vinv b w -> nth_error (snd w) i = Some s -> vec_args o -> b + vec_growth o <= max_int ->
  let w' := snd (vx_step zero grow (XCall i o) w) in
  vinv (b + vec_growth o) w' /\ length (snd w') = length (snd w) /\ vec_spec zero (shown w i) o (fst (vx_step zero grow (XCall i o) w)) (shown w' i) /\
  (forall j, j <> i -> nth_error (snd w') j = nth_error (snd w) j /\
     (forall k, (share w i j -> forall p, vec_touched o (shown w i) = Some p -> k < p) -> zget (shown w' j) k = zget (shown w j) k)).
Proof.
  exact (call_effect (vec_new zero) (vec_step zero grow) vec_made (vec_spec zero) vec_touched v_kargs vec_args v_ksize vec_growth (fun z => z) max_int vec_growth_nonneg v_make_ok v_call_ok b w i o s).
Qed.
Lemma vx_polite ops : Forall vx_args ops -> vx_total ops <= max_int -> polite_run vec_touched (vx_step zero grow) ops xstart ->
  accepts (own_copy vec_made (vec_spec zero)) [] ops (fst (run (vx_step zero grow) ops xstart)) (all_shown (snd (run (vx_step zero grow) ops xstart))).
Proof.
  intros Fa Ht P. rewrite vx_total_eq in *.
  exact (run_polite (vec_new zero) (vec_step zero grow) vec_made (vec_spec zero) vec_touched v_kargs vec_args v_ksize vec_growth (fun z => z) max_int v_ksize_nonneg vec_growth_nonneg v_make_ok v_call_ok
    ops 0 xstart (inv_start _) ltac:(lia) (vx_args_eq _ Fa) ltac:(lia) P).
Qed.

Lemma removes_shrunk o m s : wf_slice m s -> s_len s <= max_int -> vec_removes o (contents m s) ->
  exists m' s' l', snd (vec_step zero grow o (m, s)) = (m', s') /\ shrunk zero m m' s s' l'.
Proof.
  intros W Hm R. pose proof (zlen_contents m s W) as Zl. destruct o; cbn [vec_removes vec_step] in *; try contradiction; rewrite observe_snd.
  - destruct (list_snoc (contents m s)) as [C|(l' & x & C)]; [contradiction|]. destruct (PopBack_ok zero m s x l' W C) as (m' & s' & E & Sh). rewrite E. exists m', s', l'. auto.
  - destruct (list_snoc (contents m s)) as [C|(l' & x & C)]; [contradiction|]. destruct (PopBack_ok zero m s x l' W C) as (m' & s' & E & Sh).
    assert (Et : Vector_TryPopBack zero (m, s) = (if s_len s =? 0 then ret (zero, false) else e <- Vector_PopBack zero ;; ret (e, true)) (m, s)) by reflexivity. rewrite Et, <- Zl, C, zlen_snoc'.
    pose proof (zlen_nonneg l'). destruct (Z.eqb_spec (zlen l' + 1) 0); [lia|]. rewrite (bind_Ok _ _ _ _ _ E). exists m', s', l'. auto.
  - unfold Vector_Remove. rewrite wrap64_id by (unfold is_int, max_int in *; lia). destruct (RemoveRange_ok zero grow i (i + 1) m s W ltac:(lia) ltac:(lia)) as (m' & s' & E & Sh). rewrite E. eexists m', s', _. split; [reflexivity|exact Sh].
  - destruct (RemoveRange_ok zero grow i j m s W ltac:(lia) ltac:(lia)) as (m' & s' & E & Sh). rewrite E. eexists m', s', _. split; [reflexivity|exact Sh].
  - unfold Vector_RemoveLength. rewrite wrap64_id by (unfold is_int, max_int in *; lia). destruct (RemoveRange_ok zero grow i (i + n) m s W ltac:(lia) ltac:(lia)) as (m' & s' & E & Sh). rewrite E. eexists m', s', _. split; [reflexivity|exact Sh].
  - destruct (VRemoveIf_ok zero (fun (u : unit) (y : T) => (p y, u)) tt m s W) as (m' & s' & E & Sh). rewrite E. eexists m', s', _. split; [reflexivity|exact Sh].
  - destruct (Clear_ok zero m s W) as (m' & s' & E & Sh). rewrite E. eexists m', s', _. split; [reflexivity|exact Sh].
Qed.
End VecInst.
