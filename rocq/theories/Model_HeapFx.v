(** Model of the Func versions of /repo/heap.go (and of the pqFunc queue of
    /repo/priority_queue.go) for a comparison function that may panic and may
    have side effects on state of its own.  Model_Heap.v has the same functions
    for a pure one. *)
From Verif Require Import Base Trace Spec_Fx.

Section HeapFx.
Context {T St : Type}.
(** zero value of T and append's growth policy (oracle), used by append only. *)
Variable zero : T.
Variable grow : Z -> Z -> Z.
Variable less : T -> T -> M St bool.

(** Code working in place on one slice and calling [less]. *)
Definition WF (A : Type) : Type := M (list T * St) A.
Definition win {A} (p : W T A) : WF A :=
  fun s => let '(o, w) := p (fst s) in (o, (w, snd s)).
Definition call (a b : T) : WF bool :=
  fun s => let '(o, st) := less a b (snd s) in (o, (fst s, st)).

(** heap.go:169-178 heapUpFunc. *)
Fixpoint heapUpFx_loop (fuel : nat) (j : Z) : WF unit :=
  match fuel with
  | O => nofuel
  | S fuel' =>
    let i := Z.quot (j - 1) 2 in
    if i =? j then ret tt else
    hj <- win (wload j) ;; hi <- win (wload i) ;;
    b <- call hj hi ;;
    if negb b then ret tt else
    win (wswap i j) ;; heapUpFx_loop fuel' i
  end.
Definition heapUpFx (j : Z) : WF unit := heapUpFx_loop (S (S (Z.to_nat j))) j.

(** heap.go:180-198 heapDownFunc. *)
Fixpoint heapDownFx_loop (fuel : nat) (i0 n i : Z) : WF bool :=
  match fuel with
  | O => nofuel
  | S fuel' =>
    let j1 := wrap64 (2 * i + 1) in
    if (j1 >=? n) || (j1 <? 0) then ret (i >? i0) else
    let j2 := j1 + 1 in
    right <- (if j2 <? n
              then h2 <- win (wload j2) ;; h1 <- win (wload j1) ;; call h2 h1
              else ret false) ;;
    let j := if right : bool then j2 else j1 in
    hj <- win (wload j) ;; hi <- win (wload i) ;;
    b <- call hj hi ;;
    if negb b then ret (i >? i0) else
    win (wswap i j) ;; heapDownFx_loop fuel' i0 n j
  end.
Definition heapDownFx (i0 n : Z) : WF bool := heapDownFx_loop (S (Z.to_nat n)) i0 n i0.

(** heap.go:107-113 MakeHeapFunc. *)
Fixpoint MakeHeapFx_loop (fuel : nat) (n i : Z) : WF unit :=
  if i >=? 0 then
    match fuel with
    | O => nofuel
    | S fuel' => heapDownFx i n ;; MakeHeapFx_loop fuel' n (i - 1)
    end
  else ret tt.
Definition MakeHeapFx : WF unit :=
  n <- win wlen ;; MakeHeapFx_loop (Z.to_nat n) n (Z.quot n 2 - 1).

(** heap.go:118-131 IsHeapFunc. *)
Fixpoint IsHeapFx_loop (fuel : nat) (parent child : Z) : WF bool :=
  n <- win wlen ;;
  if child <? n then
    match fuel with
    | O => nofuel
    | S fuel' =>
      ap <- win (wload parent) ;; ac <- win (wload child) ;;
      b <- call ap ac ;;
      if negb b then ret false
      else IsHeapFx_loop fuel' (if Z.land child 1 =? 0 then parent + 1 else parent) (child + 1)
    end
  else ret true.
Definition IsHeapFx : WF bool := n <- win wlen ;; IsHeapFx_loop (Z.to_nat n) 0 1.

(** Functions taking *[]T: memory, header, and the state of [less]. *)
Definition on_cell {A} (p : M (cell T) A) : M (cell T * St) A :=
  fun s => let '(o, c) := p (fst s) in (o, (c, snd s)).
Definition on_win (h : slice) {A} (p : WF A) : M (cell T * St) A :=
  fun s => let '(c, st) := s in
           let '(o, (w, st')) := p (contents (fst c) h, st) in
           (o, ((write_at (fst c) h 0 w, snd c), st')).

(** heap.go:136-139 PushHeapFunc. *)
Definition PushHeapFx (v : T) : M (cell T * St) unit :=
  h <- on_cell get_hdr ;;
  h' <- on_cell (lift_mem (append_list zero grow h [v])) ;;
  on_cell (set_hdr h') ;;
  on_win h' (heapUpFx (s_len h' - 1)).

(** heap.go:144-151 PopHeapFunc. *)
Definition PopHeapFx : M (cell T * St) T :=
  h <- on_cell get_hdr ;;
  let n := s_len h - 1 in
  on_win h (win (wswap 0 n)) ;;
  on_win h (heapDownFx 0 n) ;;
  h' <- lift_o (reslice h 0 n) ;;
  on_cell (set_hdr h') ;;
  on_win h (win (wload n)).

(** heap.go:156-167 RemoveHeapFunc. *)
Definition RemoveHeapFx (i : Z) : M (cell T * St) T :=
  h <- on_cell get_hdr ;;
  let n := s_len h - 1 in
  (if n =? i then ret tt
   else on_win h (win (wswap i n)) ;;
        b <- on_win h (heapDownFx i n) ;;
        if b : bool then ret tt else on_win h (heapUpFx i)) ;;
  h' <- lift_o (reslice h 0 n) ;;
  on_cell (set_hdr h') ;;
  on_win h (win (wload n)).

(** priority_queue.go:42-69 and 88-100: a queue made by NewPriorityQueueFunc. *)
Definition pqfx_step (o : ledger_op T) : M (cell T * St) (obs T) :=
  match o with
  | LPush v => observe (fun _ => ONone) (PushHeapFx v)
  | LPop => observe OVal PopHeapFx
  | LTop => observe OVal (on_cell (h <- get_hdr ;; lift_mem (sload h 0)))
  | LLen => observe OInt (on_cell (h <- get_hdr ;; ret (s_len h)))
  | LClear => observe (fun _ => ONone)
                (on_cell (h <- get_hdr ;; h' <- lift_o (reslice h 0 0) ;; set_hdr h'))
  end.
End HeapFx.
