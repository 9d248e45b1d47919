(** The longest increasing subsequence. *)
From Verif Require Import Base BaseLemmas Spec Model_BinarySearch Spec_Lis Model_Lis.

Lemma subseq_nil_l {T} (p : list T) : subseq [] p.
Proof. induction p; constructor; auto. Qed.
Lemma subseq_snoc {T} (l p : list T) v : subseq l p -> subseq (l ++ [v]) (p ++ [v]).
Proof. induction 1; cbn; [apply subseq_take; apply subseq_nil|apply subseq_skip; auto|apply subseq_take; auto]. Qed.
Lemma subseq_more {T} (l p : list T) v : subseq l p -> subseq l (p ++ [v]).
Proof. induction 1; cbn; [apply subseq_skip; apply subseq_nil|apply subseq_skip; auto|apply subseq_take; auto]. Qed.
Lemma subseq_snoc_inv {T} (v : T) p : forall l, subseq l (p ++ [v]) -> subseq l p \/ exists l', l = l' ++ [v] /\ subseq l' p.
Proof.
  induction p as [|x p IH]; cbn; intros l H.
  - inversion H as [|? ? ? H0|? l0 ? H0]; subst; [now left|]. inversion H0; subst. right. exists []. split; [reflexivity|constructor].
  - inversion H as [|? ? ? H0|? l0 ? H0]; subst; destruct (IH _ H0) as [A|(l' & -> & A)].
    + left. now constructor.
    + right. exists l'. split; [reflexivity|now constructor].
    + left. now constructor.
    + right. exists (x :: l'). split; [reflexivity|now constructor].
Qed.

Section Lis.
Context {T : Type}.
Variable less : T -> T -> bool.
Hypothesis SW : strict_weak less.
Variable bound : list T -> T -> (T -> T -> bool) -> outcome Z.
(** R x v: v may come after x. *)
Variable R : T -> T -> bool.
Hypothesis R1 : forall x v, R x v = true -> less v x = false.
Hypothesis R2 : forall x v, R x v = false -> less x v = false.
Hypothesis R3 : forall t x v, less x t = false -> R x v = true -> R t v = true.
Hypothesis HB : forall a v, sorted_by less a -> exists r, bound a v less = Ok r /\ 0 <= r <= zlen a /\ forall i x, zget a i = Some x -> R x v = (i <? r).

Definition pairwise (l : list T) : Prop := forall i j a b, 0 <= i < j -> zget l i = Some a -> zget l j = Some b -> R a b = true.
Lemma pair_snoc l v : pairwise (l ++ [v]) <-> pairwise l /\ forall x, In x l -> R x v = true.
Proof using Type.
  clear R1 R2 R3 HB SW less bound. split.
  - intros H. split.
    + intros i j a b Hij Ga Gb. pose proof (zget_Some_range _ _ _ Gb). apply (H i j); auto; rewrite zget_app_l; auto; lia.
    + intros x Ix. apply in_zget in Ix as (i & Hi & G). apply (H i (zlen l)); [lia|rewrite zget_app_l by lia; auto|]. rewrite zget_app_r, Z.sub_diag by lia. reflexivity.
  - intros [A B] i j a b Hij Ga Gb. pose proof (zget_Some_range _ _ _ Gb) as Hj. rewrite zlen_app in Hj. change (zlen [v]) with 1 in Hj. rewrite zget_app_l in Ga by lia.
    destruct (Z.eq_dec j (zlen l)) as [-> |N].
    + rewrite zget_app_r, Z.sub_diag in Gb by lia. injection Gb as <-. apply B. apply in_zget. exists i. split; [lia|auto].
    + rewrite zget_app_l in Gb by lia. now apply (A i j).
Qed.
(** tails[k] is the least last element of the subsequences of length k + 1. *)
Record inv (p tails : list T) : Prop := {
  v_sorted : sorted_by less tails;
  v_some : forall k t, zget tails k = Some t -> exists l, zlen l = k /\ subseq (l ++ [t]) p /\ pairwise (l ++ [t]);
  v_least : forall l x, subseq (l ++ [x]) p -> pairwise (l ++ [x]) -> exists t, zget tails (zlen l) = Some t /\ less x t = false }.

Lemma step p tails tails' v i : inv p tails -> 0 <= i <= zlen tails -> (forall j x, zget tails j = Some x -> R x v = (j <? i)) ->
  (forall j, zget tails' j = if j =? i then Some v else zget tails j) -> inv (p ++ [v]) tails'.
Proof using R1 R2 R3 SW.
  clear HB bound. intros [S1 S2 S3] Hi HR HG. constructor.
  - intros a b x y Hab Ga Gb. rewrite HG in Ga, Gb. destruct (Z.eqb_spec a i), (Z.eqb_spec b i); try lia.
    + injection Ga as <-. apply R2. rewrite (HR _ _ Gb). apply Z.ltb_ge. lia.
    + injection Gb as <-. apply R1. rewrite (HR _ _ Ga). apply Z.ltb_lt. lia.
    + now apply (S1 a b).
  - intros k t G. rewrite HG in G. destruct (Z.eqb_spec k i) as [-> |N].
    + injection G as <-. destruct (Z.eq_dec i 0) as [-> |N0].
      * exists []. split; [reflexivity|]. split; [apply (subseq_snoc [] p v); apply subseq_nil_l|]. apply pair_snoc. split; [|intros x []]. intros a b x y _ Ga. apply zget_Some_range in Ga. change (zlen (@nil T)) with 0 in Ga. lia.
      * destruct (zget_range tails (i - 1)) as (t & Gt); [lia|]. destruct (S2 _ _ Gt) as (l & L & Sl & Pl). exists (l ++ [t]). split; [rewrite zlen_app; change (zlen [t]) with 1; lia|].
        split; [now apply subseq_snoc|]. apply pair_snoc. split; [exact Pl|]. assert (Rt : R t v = true) by (rewrite (HR _ _ Gt); apply Z.ltb_lt; lia).
        intros x Ix. apply in_app_iff in Ix as [Ix|[<- |[]]]; [|exact Rt]. apply (R3 x t v); [|exact Rt]. apply R1. apply pair_snoc in Pl as [_ Pl]. now apply Pl.
    + destruct (S2 _ _ G) as (l & L & Sl & Pl). exists l. split; [exact L|]. split; [now apply subseq_more|exact Pl].
  - intros l x Sl Pl. apply subseq_snoc_inv in Sl as [Sl|(l' & E & Sl)].
    + destruct (S3 _ _ Sl Pl) as (t & G & Le). rewrite HG. destruct (Z.eqb_spec (zlen l) i) as [E|N]; [|eauto]. exists v. split; [reflexivity|].
      assert (F : less t v = false) by (apply R2; rewrite (HR _ _ G); apply Z.ltb_ge; lia). exact (sw_negtrans _ SW _ _ _ Le F).
    + apply app_inj_tail in E as [<- ->].
      assert (Hl : zlen l <= i).
      { destruct l as [|y l0 _] using rev_ind; [change (zlen (@nil T)) with 0; lia|]. apply pair_snoc in Pl as [Pl Px]. destruct (S3 _ _ Sl Pl) as (t & G & Le).
        assert (Rt : R t v = true) by (apply (R3 t y v Le); apply Px; apply in_app_iff; right; now left). rewrite (HR _ _ G) in Rt. apply Z.ltb_lt in Rt. rewrite zlen_app. change (zlen [y]) with 1. lia. }
      rewrite HG. destruct (Z.eqb_spec (zlen l) i) as [E|N]; [exists v; split; [reflexivity|apply (sw_irrefl _ SW)]|].
      pose proof (zlen_nonneg l). destruct (zget_range tails (zlen l)) as (t & Gt); [lia|]. exists t. split; [exact Gt|]. apply R1. rewrite (HR _ _ Gt). apply Z.ltb_lt. lia.
Qed.
Lemma loop_ok vs : forall p tails, inv p tails -> exists tails', tails_loop less bound vs tails = Ok tails' /\ inv (p ++ vs) tails'.
Proof using R1 R2 R3 SW HB.
  induction vs as [|v vs IH]; intros p tails I; cbn [tails_loop]; [exists tails; rewrite app_nil_r; auto|].
  destruct (HB tails v (v_sorted _ _ I)) as (i & E & Hi & HR). rewrite E. cbn [obind].
  replace (p ++ v :: vs) with ((p ++ [v]) ++ vs) by (rewrite <- app_assoc; reflexivity).
  destruct (Z.eqb_spec i (zlen tails)) as [-> |N].
  - apply IH. apply (step p tails _ v (zlen tails)); auto. intros j. destruct (Z.eqb_spec j (zlen tails)) as [-> |N]; [rewrite zget_app_r, Z.sub_diag by lia; reflexivity|].
    destruct (Z_lt_le_dec j (zlen tails)); [now apply zget_app_l|]. rewrite zget_app_r by lia.
    rewrite (proj2 (zget_None tails j)) by lia. apply zget_None. change (zlen [v]) with 1. lia.
  - destruct (zget_range tails i) as (t & G); [lia|]. rewrite G. apply IH. apply (step p tails _ v i); auto. intros j. rewrite zget_zupd by lia. now rewrite Z.eqb_sym.
Qed.
Lemma longest_ok vs : exists n, longest_by less bound vs = Ok n /\ longest pairwise vs n.
Proof using R1 R2 R3 SW HB.
  destruct (loop_ok vs [] []) as (tails & E & [S1 S2 S3]).
  { constructor.
    - intros a b x y _ G. apply zget_Some_range in G. change (zlen (@nil T)) with 0 in G. lia.
    - intros k t G. apply zget_Some_range in G. change (zlen (@nil T)) with 0 in G. lia.
    - intros l x H. inversion H as [H0| |]. destruct l; discriminate H0. }
  cbn [app] in *. exists (zlen tails). split; [unfold longest_by; now rewrite E|]. split.
  - destruct (Z.eq_dec (zlen tails) 0) as [Z0|N].
    + exists []. split; [apply subseq_nil_l|]. split; [|now rewrite Z0]. intros a b x y _ G. apply zget_Some_range in G. change (zlen (@nil T)) with 0 in G. lia.
    + pose proof (zlen_nonneg tails). destruct (zget_range tails (zlen tails - 1)) as (t & G); [lia|]. destruct (S2 _ _ G) as (l & L & Sl & Pl). exists (l ++ [t]). split; [exact Sl|]. split; [exact Pl|]. rewrite zlen_app. change (zlen [t]) with 1. lia.
  - intros l Sl Pl. destruct l as [|x l _] using rev_ind; [apply zlen_nonneg|]. destruct (S3 _ _ Sl Pl) as (t & G & _). apply zget_Some_range in G. rewrite zlen_app. change (zlen [x]) with 1. lia.
Qed.
End Lis.
