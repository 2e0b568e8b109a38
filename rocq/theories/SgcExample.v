(* C66: concrete histories. *)
From Coq Require Import NArith List Bool Lia Sorting.Permutation.
From Verif Require Import AMap TrkModel SgcModel SgcThms.
Import ListNotations.
Open Scope N_scope.

Inductive gop :=
| OHandle (b : bid) (x : hnd) | OImport (b : bid) | OStore (b : bid) (force : bool)
| OTrkIns (s : N) | OTrkRun | OStart (target : N) | OTops | OCollect | ODel | OEnd.
Definition mem (b : bid) (l : list bid) : bool := existsb (bid_eqb b) l.
Definition gexec (w : world) (s : gsys) (o : gop) : option gsys :=
  match o with
  | OHandle b x => Some (mkG (g_states s) (g_all s) (g_stored s) (aset bid_eqb b x (g_handles s)) (g_trk s) (g_gc s) (g_edges s))
  | OImport b => Some (mkG (aset bid_eqb b (w_root w b) (g_states s)) (aset bid_eqb b (w_root w b) (g_all s))
                   (b :: g_stored s) (g_handles s) (g_trk s) (g_gc s) (g_edges s))
  | OStore b force =>
    if mem (w_prev w b) (g_stored s) && negb (b_seq b =? 0) && negb (mem b (g_stored s)) then
      if direct_store w force b then
        Some (mkG (aset bid_eqb b (w_root w b) (g_states s)) (aset bid_eqb b (w_root w b) (g_all s))
                   (b :: g_stored s) (g_handles s) (g_trk s) (g_gc s) (g_edges s))
      else Some (mkG (g_states s) (g_all s) (b :: g_stored s) (g_handles s) (g_trk s) (g_gc s) (g_edges s))
    else None
  | OTrkIns m =>
    if N.of_nat (length (ts_live (g_trk s)) + length (ts_calls (g_trk s))) <? 2 ^ 32 - 1 then
      Some (mkG (g_states s) (g_all s) (g_stored s) (g_handles s)
                (mkTS (ts_tr (g_trk s)) (ts_live (g_trk s)) (InsA m :: ts_calls (g_trk s))) (g_gc s) (g_edges s))
    else None
  | OTrkRun =>
    match ts_calls (g_trk s) with
    | InsA m :: c =>
      match ins_read m (ts_tr (g_trk s)) with
      | (t, false) => Some (mkG (g_states s) (g_all s) (g_stored s) (g_handles s) (mkTS t (ts_live (g_trk s)) (InsB m :: c)) (g_gc s) (g_edges s))
      | (t, true) => None
      end
    | InsB m :: c => Some (mkG (g_states s) (g_all s) (g_stored s) (g_handles s)
                               (mkTS (ins_write m (ts_tr (g_trk s))) (m :: ts_live (g_trk s)) c) (g_gc s) (g_edges s))
    | _ => None
    end
  | OStart target =>
    match g_gc s, gc_edge w (g_states s) (g_handles s) (tr_seqno (ts_tr (g_trk s))) target with
    | GIdle, Some e => Some (mkG (g_states s) (g_all s) (g_stored s) (g_handles s) (g_trk s) (GEdge e) (g_edges s))
    | _, _ => None
    end
  | OTops =>
    match g_gc s with
    | GEdge e => match gc_heights (g_states s) (w_tops w e) [] with
                 | Some hs => Some (mkG (g_states s) (g_all s) (g_stored s) (g_handles s) (g_trk s) (GTop e hs) ((e, hs) :: g_edges s))
                 | None => None
                 end
    | _ => None
    end
  | OCollect =>
    match g_gc s with
    | GTop e hs => Some (mkG (g_states s) (g_all s) (g_stored s) (g_handles s) (g_trk s)
                   (GDel e hs (gc_candidates (b_seq e) hs (g_states s))) (g_edges s))
    | _ => None
    end
  | ODel =>
    match g_gc s with
    | GDel e hs (b :: r) => Some (mkG (gc_remove (g_handles s) b (g_states s)) (g_all s) (g_stored s) (g_handles s) (g_trk s)
                   (GDel e hs r) (g_edges s))
    | _ => None
    end
  | OEnd => Some (mkG (g_states s) (g_all s) (g_stored s) (g_handles s) (g_trk s) GIdle (g_edges s))
  end.
Fixpoint gexecs (w : world) (s : gsys) (l : list gop) : option gsys :=
  match l with
  | [] => Some s
  | o :: r => match gexec w s o with Some s' => gexecs w s' r | None => None end
  end.
Lemma mem_in b l : mem b l = true <-> In b l.
Proof.
  unfold mem. rewrite existsb_exists. split.
  - intros (x & A & B). destruct (bid_eqb_spec b x) as [->|]; [exact A|discriminate].
  - intros H. exists b. split; [exact H|]. destruct (bid_eqb_spec b b); congruence.
Qed.
Lemma gexec_step w s o s' : gexec w s o = Some s' -> gstep w s s'.
Proof.
  destruct o as [b x|b|b force|m| |target| | | |]; cbn [gexec].
  - intros [= <-]. apply g_handle.
  - intros [= <-]. apply g_import.
  - destruct (mem (w_prev w b) (g_stored s)) eqn:A; cbn [andb]; [|discriminate].
    destruct (N.eqb_spec (b_seq b) 0) as [|NZ]; cbn [negb andb]; [discriminate|].
    destruct (mem b (g_stored s)) eqn:B; cbn [negb]; [discriminate|].
    assert (NB : ~ In b (g_stored s)) by (intros Q; apply mem_in in Q; congruence).
    apply mem_in in A. destruct (direct_store w force b) eqn:D; intros [= <-].
    + exact (g_store_direct w s b force A NZ NB D).
    + exact (g_store_virtual w s b force A NZ NB D).
  - destruct (g_trk s) as [t l c] eqn:ET; cbn [ts_tr ts_live ts_calls].
    destruct (N.ltb_spec (N.of_nat (length l + length c)) (2 ^ 32 - 1)) as [L|]; [|discriminate]. intros [= <-].
    apply g_track. rewrite ET. now apply t_ins.
  - destruct (g_trk s) as [t l c] eqn:ET; cbn [ts_tr ts_live ts_calls]. destruct c as [|[m|m|m|m] c]; try discriminate.
    + destruct (ins_read m t) as [t' [|]] eqn:E; [discriminate|]. intros [= <-]. apply g_track. rewrite ET.
      exact (t_insa t l [] m c t' E).
    + intros [= <-]. apply g_track. rewrite ET. exact (t_insb t l [] m c).
  - destruct (g_gc s) eqn:P; try discriminate. destruct (gc_edge _ _ _ _ target) as [e|] eqn:E; [|discriminate].
    intros [= <-]. exact (g_start w s target e P E).
  - destruct (g_gc s) as [|e|e hs|e hs cs] eqn:P; try discriminate.
    destruct (gc_heights _ _ _) as [hs|] eqn:E; [|discriminate]. intros [= <-].
    exact (g_tops w s e hs hs P E (Permutation_refl _)).
  - destruct (g_gc s) as [|e|e hs|e hs cs] eqn:P; try discriminate. intros [= <-]. exact (g_collect w s e hs P).
  - destruct (g_gc s) as [|e|e hs|e hs [|b r]] eqn:P; try discriminate. intros [= <-]. exact (g_del w s e hs b r P).
  - intros [= <-]. apply g_end.
Qed.
Lemma gexecs_reach w l : forall s s', greach w s -> gexecs w s l = Some s' -> greach w s'.
Proof.
  induction l as [|o l IH]; intros s s' H E; cbn [gexecs] in E; [now injection E as <-|].
  destruct (gexec w s o) as [s1|] eqn:E1; [|discriminate]. apply (IH s1 s'); [|exact E].
  exact (gr_step w s s1 H (gexec_step w s o s1 E1)).
Qed.

(* one shard; masterchain block n has shard block 2n on top and refers back
   to masterchain block n - 1; block 323 is a fork of block 223 *)
Definition xmc (n : N) : bid := mkBid mc_wc (2 ^ 63) n (100 + n).
Definition xsb (n : N) : bid := mkBid 0 (2 ^ 63) n (200 + n).
Definition xfork : bid := mkBid 0 (2 ^ 63) 23 323.
(* a shard of a workchain that appears later *)
Definition xnew (n : N) : bid := mkBid 1 (2 ^ 63) n (400 + n).
Definition xw (step : N) : world :=
  mkW (fun b => mkBid (b_wc b) (b_pfx b) (b_seq b - 1) (if b_hash b =? 323 then 222 else b_hash b - 1))
      (fun b => b_seq b - 1)
      (fun b => [xsb (2 * b_seq b)])
      (fun b => 1000 + b_hash b) step.
Lemma xw_ok step : 0 < step -> world_ok (xw step).
Proof.
  intros H. constructor; cbn [xw w_prev w_minref w_tops w_step].
  - intros b NZ. split; [reflexivity|]. cbn [b_seq]. lia.
  - intros e. split; [repeat constructor; intros []|]. intros t [<-|[]]. reflexivity.
  - intros b. lia.
  - exact H.
Qed.
Lemma xsb_prev step n : n <> 0 -> n < 100 -> w_prev (xw step) (xsb n) = xsb (n - 1).
Proof.
  intros NZ L. cbn [xw w_prev]. unfold xsb. cbn [b_wc b_pfx b_seq b_hash].
  destruct (N.eqb_spec (200 + n) 323) as [E|E]; [lia|]. f_equal. lia.
Qed.
Lemma desc_sb step n k : (k <=? n) && (n <? 100) = true -> desc (xw step) (xsb n) (xsb k).
Proof.
  intros H. apply andb_true_iff in H. destruct H as [H1 H2]. apply N.leb_le in H1. apply N.ltb_lt in H2.
  replace n with (N.of_nat (N.to_nat (n - k)) + k) by lia.
  assert (L : N.of_nat (N.to_nat (n - k)) + k < 100) by lia. revert L. generalize (N.to_nat (n - k)). clear.
  induction n as [|n IH]; intros L; [constructor|]. apply d_prev; [cbn [xsb b_seq]; lia|].
  rewrite xsb_prev by lia. replace (N.of_nat (S n) + k - 1) with (N.of_nat n + k) by lia. apply IH. lia.
Qed.
Definition full : hnd := mkH true true false.
Definition blk (b : bid) (force : bool) : list gop := [OHandle b full; OStore b force].

Definition ops1 : list gop :=
  [OImport (xmc 0); OImport (xsb 0)] ++
  blk (xsb 1) true ++ blk (xsb 2) false ++ blk (xmc 1) true ++
  blk (xsb 3) false ++ blk (xsb 4) false ++ blk (xmc 2) true ++
  blk (xsb 5) false ++ blk (xmc 3) true ++
  [OTrkIns 3; OTrkRun; OTrkRun; OStart 9; OTops; OCollect; ODel; ODel].
Definition sys1 : option gsys := Eval vm_compute in gexecs (xw 3) g_init ops1.
Lemma sys1_eq : gexecs (xw 3) g_init ops1 = sys1.
Proof. vm_compute. reflexivity. Qed.
Definition s1 : gsys := Eval vm_compute in match sys1 with Some s => s | None => g_init end.
(* two states were removed; the last block is loaded from the state of block
   3 and the updates of blocks 4 and 5 *)
Theorem gc_example : greach (xw 3) s1 /\ In (xsb 5) (g_stored s1) /\
  (exists e hs, g_edges s1 = [(e, hs)] /\ e = xmc 2) /\
  map fst (g_states s1) = [xmc 0; xsb 0; xsb 3; xmc 2; xmc 3] /\
  map fst (g_all s1) = [xmc 0; xsb 0; xsb 1; xmc 1; xsb 3; xmc 2; xmc 3] /\
  (forall e hs, In (e, hs) (g_edges s1) -> not_older (xw 3) (g_all s1) e (xsb 5)) /\
  load_state (xw 3) (g_states s1) (g_handles s1) (xsb 5) = Some (xsb 3, 1203, [xsb 4; xsb 5]).
Proof.
  split; [apply (gexecs_reach (xw 3) ops1 g_init); [constructor|rewrite sys1_eq; vm_compute; reflexivity]|].
  split; [apply mem_in; vm_compute; reflexivity|].
  split; [eexists; eexists; split; [vm_compute; reflexivity|vm_compute; reflexivity]|].
  split; [vm_compute; reflexivity|]. split; [vm_compute; reflexivity|]. split.
  - intros e hs H. assert (E : e = xmc 2) by (vm_compute in H; destruct H as [[= <- _]|[]]; vm_compute; reflexivity). subst e.
    unfold not_older. change (is_mc (sh (xsb 5))) with false. cbn match.
    exists (xsb 4). split; [left; reflexivity|].
    assert (D4 : forall k, In k [0; 1; 2; 3; 4] -> desc (xw 3) (xsb 4) (xsb k)) by (intros k Hk; apply desc_sb; cbn in Hk; destruct Hk as [<-|[<-|[<-|[<-|[<-|[]]]]]]; reflexivity).
    split; [apply (desc_sb 3 5); reflexivity|].
    intros x Hx S1 S2. apply stored_in in Hx.
    assert (KX : In x [xmc 0; xsb 0; xsb 1; xmc 1; xsb 3; xmc 2; xmc 3]) by (vm_compute in Hx |- *; exact Hx).
    destruct KX as [<-|[<-|[<-|[<-|[<-|[<-|[<-|[]]]]]]]]; try (vm_compute in S1; discriminate); apply D4; cbn; tauto.
  - vm_compute. reflexivity.
Qed.

(* A rejected candidate whose state was stored directly hides the last
   direct state of the real chain: after GC the top block has no state. *)
Definition ops2 : list gop :=
  [OImport (xmc 10); OImport (xsb 21)] ++
  blk (xsb 22) false ++ blk (xmc 11) true ++
  blk xfork true ++ blk (xsb 23) false ++ blk (xsb 24) false ++ blk (xmc 12) true ++ blk (xmc 13) true ++
  [OStart 13; OTops; OCollect; ODel; ODel; ODel].
Definition s2 : gsys := Eval vm_compute in match gexecs (xw 10) g_init ops2 with Some s => s | None => g_init end.
Lemma s2_eq : gexecs (xw 10) g_init ops2 = Some s2.
Proof. vm_compute. reflexivity. Qed.
Theorem gc_fork_breaks_load : greach (xw 10) s2 /\ In (xsb 24) (g_stored s2) /\
  map fst (g_edges s2) = [xmc 12] /\ w_tops (xw 10) (xmc 12) = [xsb 24] /\
  load_state (xw 10) (g_all s2) (g_handles s2) (xsb 24) = Some (xsb 21, 1221, [xsb 22; xsb 23; xsb 24]) /\
  load_state (xw 10) (g_states s2) (g_handles s2) (xsb 24) = None /\
  map fst (g_states s2) = [xfork; xmc 12; xmc 13].
Proof.
  split; [apply (gexecs_reach (xw 10) ops2 g_init); [constructor|exact s2_eq]|].
  split; [apply mem_in; vm_compute; reflexivity|].
  split; [vm_compute; reflexivity|]. split; [vm_compute; reflexivity|]. split; [vm_compute; reflexivity|].
  split; vm_compute; reflexivity.
Qed.

(* A workchain that the edge block does not know: all its states but the
   zerostate are removed, however recent. *)
Definition ops3 : list gop :=
  [OImport (xmc 10); OImport (xsb 21)] ++ blk (xsb 22) true ++ blk (xmc 11) true ++
  [OImport (xnew 0)] ++ blk (xnew 1) true ++ blk (xnew 2) true ++
  blk (xsb 23) true ++ blk (xsb 24) true ++ blk (xmc 12) true ++
  [OStart 12; OTops; OCollect; ODel; ODel; ODel; ODel].
Definition s3 : gsys := Eval vm_compute in match gexecs (xw 10) g_init ops3 with Some s => s | None => g_init end.
Lemma s3_eq : gexecs (xw 10) g_init ops3 = Some s3.
Proof. vm_compute. reflexivity. Qed.
Theorem gc_new_shard_removed : greach (xw 10) s3 /\ map fst (g_edges s3) = [xmc 11] /\
  aget bid_eqb (xnew 2) (g_all s3) = Some 1402 /\ aget bid_eqb (xnew 2) (g_states s3) = None /\
  map fst (g_states s3) = [xsb 22; xmc 11; xnew 0; xsb 23; xsb 24; xmc 12].
Proof.
  split; [apply (gexecs_reach (xw 10) ops3 g_init); [constructor|exact s3_eq]|].
  split; [vm_compute; reflexivity|]. split; [vm_compute; reflexivity|]. split; vm_compute; reflexivity.
Qed.

(* A state that gets into memory while GC is running does not stop it: the
   run goes on with the edge computed before. *)
Definition ops4 : list gop :=
  [OImport (xmc 10); OImport (xsb 21)] ++ blk (xsb 22) true ++ blk (xmc 11) true ++
  blk (xsb 23) true ++ blk (xsb 24) true ++ blk (xmc 12) true ++ blk (xmc 13) true ++
  [OStart 13; OTops; OCollect; OTrkIns 10; OTrkRun; OTrkRun; ODel].
Definition s4 : gsys := Eval vm_compute in match gexecs (xw 10) g_init ops4 with Some s => s | None => g_init end.
Lemma s4_eq : gexecs (xw 10) g_init ops4 = Some s4.
Proof. vm_compute. reflexivity. Qed.
Theorem gc_late_handle : greach (xw 10) s4 /\ ts_live (g_trk s4) = [10] /\ tr_seqno (ts_tr (g_trk s4)) = Some 10 /\
  map fst (g_edges s4) = [xmc 12] /\ aget bid_eqb (xmc 10) (g_states s4) = None.
Proof.
  split; [apply (gexecs_reach (xw 10) ops4 g_init); [constructor|exact s4_eq]|].
  split; [vm_compute; reflexivity|]. split; [vm_compute; reflexivity|]. split; vm_compute; reflexivity.
Qed.
