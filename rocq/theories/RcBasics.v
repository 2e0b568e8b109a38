(* Counting, and the invariant of the cell storage between operations. *)
From Coq Require Import NArith ZArith List Bool Lia Permutation.
From Coq Require Import ZifyN ZifyNat ZifyBool.
From Verif Require Import AMap CntModel CntSpec RcModel RcSpec.
Import ListNotations.
Open Scope N_scope.

Lemma occ_app h a b : occ h (a ++ b) = occ h a + occ h b.
Proof. induction a as [|x a IH]; cbn [occ app]; [reflexivity|]. rewrite IH. lia. Qed.
Lemma occ_in h l : 0 < occ h l <-> In h l.
Proof.
  induction l as [|x l IH]; cbn [occ In]; [split; [lia|intros []]|].
  destruct (N.eqb_spec h x) as [->|E]; [split; [now left|lia]|]. rewrite N.add_0_l, IH. split; [now right|].
  intros [Q|Q]; [now subst|exact Q].
Qed.
Lemma occ_zero h l : occ h l = 0 <-> ~ In h l.
Proof. rewrite <- occ_in. lia. Qed.
Lemma occ_perm h a b : Permutation a b -> occ h a = occ h b.
Proof. induction 1; cbn [occ]; lia. Qed.
Lemma refs_app content h a b : refs_to content h (a ++ b) = refs_to content h a + refs_to content h b.
Proof. induction a as [|x a IH]; cbn [refs_to app]; [reflexivity|]. rewrite IH. lia. Qed.
Lemma refs_perm content h a b : Permutation a b -> refs_to content h a = refs_to content h b.
Proof. induction 1; cbn [refs_to]; lia. Qed.
Lemma refs_pos content h l : 0 < refs_to content h l <-> exists c, In c l /\ In h (cc_refs (content c)).
Proof.
  induction l as [|x l IH]; cbn [refs_to In]; [split; [lia|intros (c & [] & _)]|].
  split.
  - intros H. destruct (N.eq_dec (occ h (cc_refs (content x))) 0) as [E|E].
    + rewrite E, N.add_0_l in H. destruct (proj1 IH H) as (c & A & B). exists c. split; [now right|exact B].
    + exists x. split; [now left|]. apply occ_in. lia.
  - intros (c & [->|A] & B).
    + apply occ_in in B. lia.
    + assert (0 < refs_to content h l) by (apply IH; exists c; now split). lia.
Qed.
Lemma refs_incl content h a b : NoDup a -> (forall c, In c a -> In c b) ->
  refs_to content h a <= refs_to content h b.
Proof.
  revert b. induction a as [|x a IH]; intros b ND SUB; [cbn [refs_to]; lia|].
  inversion ND as [|? ? NI ND']; subst.
  destruct (in_split x b) as (b1 & b2 & ->); [apply SUB; now left|].
  rewrite refs_app. cbn [refs_to]. specialize (IH (b1 ++ b2) ND'). rewrite refs_app in IH.
  assert (refs_to content h a <= refs_to content h b1 + refs_to content h b2); [|lia].
  apply IH. intros c Hc. specialize (SUB c (or_intror Hc)). apply in_app_iff in SUB. apply in_app_iff.
  destruct SUB as [Q|[Q|Q]]; [now left|subst; contradiction|now right].
Qed.

Notation get := (aget N.eqb).
Lemma nget_aset {V} k (v : V) m k' : get k' (aset N.eqb k v m) = if k' =? k then Some v else get k' m.
Proof. apply (aget_aset N.eqb N.eqb_spec). Qed.
Lemma nget_adel {V} k (m : list (N * V)) k' : get k' (adel N.eqb k m) = if k' =? k then None else get k' m.
Proof. apply (aget_adel N.eqb N.eqb_spec). Qed.
Lemma nget_key {V} k (m : list (N * V)) : In k (akeys m) <-> exists v, get k m = Some v.
Proof.
  split; [apply (aget_some_key N.eqb N.eqb_spec)|]. intros (v & H).
  apply (aget_some_in N.eqb N.eqb_spec) in H. exact (in_map fst _ _ H).
Qed.
Lemma nget_none {V} k (m : list (N * V)) : get k m = None <-> ~ In k (akeys m).
Proof. apply (aget_none N.eqb N.eqb_spec). Qed.

Lemma in_stored d h : In h (stored d) <-> exists v, look d h = Some v.
Proof.
  unfold stored, look. rewrite in_app_iff, !nget_key. split.
  - intros [(v & E)|(v & E)]; [exists v; now rewrite E|]. destruct (get h (d_nur d)) as [w|]; [exists w; reflexivity|].
    exists v. exact E.
  - intros (v & E). destruct (get h (d_nur d)) as [w|]; [left; exists w; reflexivity|right; exists v; exact E].
Qed.
Lemma not_stored d h : look d h = None <-> ~ In h (stored d).
Proof.
  rewrite in_stored. destruct (look d h) as [v|]; split; intros H; try discriminate.
  - exfalso. apply H. exists v. reflexivity.
  - intros (v & E). discriminate.
  - reflexivity.
Qed.

Record GOOD (fp : N -> N) (content : N -> cellc) (d : cdb) (R : list N) : Prop := {
  g_nk : NoDup (stored d);
  g_val : forall h v, look d h = Some v -> snd v = content h /\ fst v < d_next d;
  g_inj : forall h h' v v', look d h = Some v -> look d h' = Some v' -> fst v = fst v' -> h = h';
  g_rc : forall h v, look d h = Some v ->
    d_rc d (fst v) = occ h R + refs_to content h (stored d) /\ 0 < d_rc d (fst v);
  g_free : forall i, (forall h v, look d h = Some v -> fst v <> i) -> d_rc d i = 0;
  g_closed : forall h k, In h (stored d) -> In k (cc_refs (content h)) -> In k (stored d);
  g_roots : forall h, In h R -> In h (stored d);
  g_filt : Permutation (d_filt d) (map fp (akeys (d_rows d)));
  g_cache : forall h v, get h (d_cache d) = Some v -> get h (d_rows d) = Some v
}.

Lemma nodup_app {A} (a b : list A) : NoDup (a ++ b) <-> NoDup a /\ NoDup b /\ forall x, In x a -> ~ In x b.
Proof.
  induction a as [|x a IH]; cbn [app].
  - split; [intros H; split; [constructor|split; [exact H|intros x []]]|intros (_ & H & _); exact H].
  - split.
    + intros H. inversion H as [|? ? NI ND]; subst. apply IH in ND. destruct ND as (A1 & A2 & A3).
      rewrite in_app_iff in NI. split; [constructor; [intros Q; apply NI; now left|exact A1]|].
      split; [exact A2|]. intros y [<-|Hy]; [intros Q; apply NI; now right|now apply A3].
    + intros (A1 & A2 & A3). inversion A1 as [|? ? NI ND]; subst. constructor.
      * rewrite in_app_iff. intros [Q|Q]; [contradiction|]. exact (A3 x (or_introl eq_refl) Q).
      * apply IH. split; [exact ND|]. split; [exact A2|]. intros y Hy. apply A3. now right.
Qed.

Lemma stored_nd d : NoDup (stored d) <->
  NoDup (akeys (d_nur d)) /\ NoDup (akeys (d_rows d)) /\
  forall h v, get h (d_nur d) = Some v -> get h (d_rows d) = None.
Proof.
  unfold stored. rewrite nodup_app. split; intros (A & B & C); (split; [exact A|]; split; [exact B|]).
  - intros h v E. apply nget_none. apply C. apply nget_key. exists v. exact E.
  - intros h Hh. apply nget_key in Hh. destruct Hh as (v & E). apply nget_none. exact (C h v E).
Qed.

(* the counter of a stored cell *)
Lemma cget_rc fp content d R h v : GOOD fp content d R -> look d h = Some v -> cget (d_rc d) (fst v) = d_rc d (fst v).
Proof.
  intros G L. unfold cget. destruct (N.eqb_spec (d_rc d (fst v)) 0) as [E|]; [|reflexivity].
  pose proof (proj2 (g_rc _ _ _ _ G h v L)). lia.
Qed.

(* ---- bulk updates of maps ---- *)
Lemma del_all_get l : forall m h, get h (del_all l m) = if nmem h l then None else get h m.
Proof.
  induction l as [|x l IH]; intros m h; cbn [del_all nmem existsb]; [reflexivity|].
  rewrite IH. fold (nmem h l). destruct (nmem h l); [now rewrite orb_true_r|]. rewrite orb_false_r, nget_adel. reflexivity.
Qed.
Lemma del_all_nodup l : forall m, NoDup (akeys m) -> NoDup (akeys (del_all l m)).
Proof.
  induction l as [|x l IH]; intros m H; cbn [del_all]; [exact H|]. apply IH.
  now apply (adel_nodup N.eqb).
Qed.
Lemma nmem_in h l : nmem h l = true <-> In h l.
Proof.
  unfold nmem. rewrite existsb_exists. split.
  - intros (x & A & B). apply N.eqb_eq in B. now subst.
  - intros H. exists h. split; [exact H|apply N.eqb_refl].
Qed.
Lemma nmem_false h l : nmem h l = false <-> ~ In h l.
Proof. rewrite <- nmem_in. destruct (nmem h l); split; intros; [discriminate|exfalso; auto|discriminate|reflexivity]. Qed.
Lemma put_all_get l : NoDup (map fst l) -> forall m h,
  get h (put_all l m) = match get h l with Some v => Some v | None => get h m end.
Proof.
  induction l as [|[x v] l IH]; intros ND m h; cbn [put_all aget]; [reflexivity|].
  cbn [map fst] in ND. inversion ND as [|? ? NI ND']; subst. rewrite IH by exact ND'. rewrite nget_aset.
  destruct (N.eqb_spec h x) as [->|E]; [|reflexivity].
  assert (Q : get x l = None) by (now apply nget_none). now rewrite Q.
Qed.
Lemma put_all_nodup l : forall m, NoDup (akeys m) -> NoDup (akeys (put_all l m)).
Proof.
  induction l as [|[x v] l IH]; intros m H; cbn [put_all]; [exact H|]. apply IH.
  now apply (aset_nodup N.eqb N.eqb_spec).
Qed.
Lemma akeys_aset_new {V} k (v : V) m : get k m = None -> aset N.eqb k v m = m ++ [(k, v)].
Proof.
  induction m as [|[x w] m IH]; cbn [aget aset app]; [reflexivity|].
  destruct (k =? x); [discriminate|]. intros H. now rewrite IH.
Qed.
Lemma put_all_new l : NoDup (map fst l) -> forall m, (forall h, In h (map fst l) -> get h m = None) ->
  put_all l m = m ++ l.
Proof.
  induction l as [|[x v] l IH]; intros ND m H; cbn [put_all]; [now rewrite app_nil_r|].
  cbn [map fst] in ND. inversion ND as [|? ? NI ND']; subst.
  rewrite akeys_aset_new by (apply H; now left). rewrite IH; [rewrite <- app_assoc; reflexivity|exact ND'|].
  intros h Hh. rewrite <- (akeys_aset_new x v m) by (apply H; now left). rewrite nget_aset.
  destruct (N.eqb_spec h x) as [->|E]; [contradiction|]. apply H. now right.
Qed.

(* ---- promotion ---- *)
Definition promote (fp : N -> N) (d : cdb) (l : list (N * rowv)) : cdb :=
  mkDb (del_all (map fst l) (d_nur d)) (put_all l (d_rows d)) (put_all l (d_cache d))
       (map (fun e => fp (fst e)) l ++ d_filt d) (d_next d) (d_rc d) (d_states d).

Section Promote.
  Variables (fp : N -> N) (content : N -> cellc) (d : cdb) (R : list N) (l : list (N * rowv)).
  Hypothesis G : GOOD fp content d R.
  Hypothesis ND : NoDup (map fst l).
  Hypothesis SUB : forall e, In e l -> get (fst e) (d_nur d) = Some (snd e).

  Lemma pm_sub h v : get h l = Some v -> get h (d_nur d) = Some v.
  Proof. intros E. apply (aget_some_in N.eqb N.eqb_spec) in E. exact (SUB _ E). Qed.
  Lemma pm_rows h : In h (map fst l) -> get h (d_rows d) = None.
  Proof.
    intros H. apply in_map_iff in H. destruct H as (e & <- & He).
    destruct (proj1 (stored_nd d) (g_nk _ _ _ _ G)) as (_ & _ & DJ). exact (DJ _ _ (SUB e He)).
  Qed.
  Lemma promote_look h : look (promote fp d l) h = look d h.
  Proof.
    unfold look, promote. cbn [d_nur d_rows]. rewrite del_all_get, put_all_get by exact ND.
    destruct (nmem h (map fst l)) eqn:E.
    - apply nmem_in in E. destruct (proj1 (nget_key h l) E) as (v & Q). now rewrite Q, (pm_sub h v Q).
    - apply nmem_false in E. assert (Q : get h l = None) by (now apply nget_none). rewrite Q. reflexivity.
  Qed.
  Lemma promote_stored : Permutation (stored (promote fp d l)) (stored d).
  Proof.
    destruct (proj1 (stored_nd d) (g_nk _ _ _ _ G)) as (N1 & N2 & DJ).
    apply NoDup_Permutation.
    - apply stored_nd. unfold promote. cbn [d_nur d_rows]. split; [now apply del_all_nodup|].
      split; [now apply put_all_nodup|]. intros h v. rewrite del_all_get, put_all_get by exact ND.
      destruct (nmem h (map fst l)) eqn:E; [discriminate|]. intros Q. apply nmem_false in E.
      assert (Q2 : get h l = None) by (now apply nget_none). rewrite Q2. exact (DJ h v Q).
    - exact (g_nk _ _ _ _ G).
    - intros h. rewrite !in_stored. setoid_rewrite promote_look. reflexivity.
  Qed.
  Lemma promote_good : GOOD fp content (promote fp d l) R.
  Proof.
    pose proof promote_stored as PS. constructor.
    - eapply Permutation_NoDup; [symmetry; exact PS|exact (g_nk _ _ _ _ G)].
    - intros h v. rewrite promote_look. exact (g_val _ _ _ _ G h v).
    - intros h h' v v'. rewrite !promote_look. exact (g_inj _ _ _ _ G h h' v v').
    - intros h v. rewrite promote_look. intros E. rewrite (refs_perm content h _ _ PS).
      exact (g_rc _ _ _ _ G h v E).
    - intros i H. apply (g_free _ _ _ _ G i). intros h v E. apply (H h v). now rewrite promote_look.
    - intros h k Hh Hk. apply (Permutation_in _ (Permutation_sym PS)).
      apply (g_closed _ _ _ _ G h k); [|exact Hk]. exact (Permutation_in _ PS Hh).
    - intros h Hh. apply (Permutation_in _ (Permutation_sym PS)). exact (g_roots _ _ _ _ G h Hh).
    - unfold promote. cbn [d_filt d_rows]. rewrite put_all_new; [|exact ND|exact pm_rows].
      unfold akeys. rewrite !map_app, (map_map fst fp l). rewrite (Permutation_app_comm (map _ l)).
      apply Permutation_app_tail. exact (g_filt _ _ _ _ G).
    - intros h v. unfold promote. cbn [d_cache d_rows]. rewrite !put_all_get by exact ND.
      destruct (get h l); [auto|]. exact (g_cache _ _ _ _ G h v).
  Qed.
End Promote.

Lemma del_all_self l : forall m : list (N * rowv), (forall e, In e m -> In (fst e) l) -> del_all l m = [].
Proof.
  intros m H. destruct (del_all l m) as [|[h v] t] eqn:E; [reflexivity|exfalso].
  assert (Q : get h (del_all l m) = Some v) by (rewrite E; cbn [aget]; now rewrite N.eqb_refl).
  rewrite del_all_get in Q. destruct (nmem h l) eqn:M; [discriminate|].
  apply (aget_some_in N.eqb N.eqb_spec) in Q. apply nmem_false in M. exact (M (H _ Q)).
Qed.

Lemma flush_good fp content d R : GOOD fp content d R -> GOOD fp content (flush_all fp d) R /\
  forall h, look (flush_all fp d) h = look d h.
Proof.
  intros G. destruct (proj1 (stored_nd d) (g_nk _ _ _ _ G)) as (N1 & N2 & DJ).
  assert (SUB : forall e, In e (d_nur d) -> get (fst e) (d_nur d) = Some (snd e)).
  { intros [h v] He. apply (aget_in N.eqb N.eqb_spec); assumption. }
  assert (E : flush_all fp d = promote fp d (d_nur d)).
  { unfold flush_all, promote. rewrite (del_all_self (map fst (d_nur d)) (d_nur d)); [reflexivity|].
    intros e He. exact (in_map fst _ _ He). }
  rewrite E. split; [now apply promote_good|]. intros h. now apply promote_look.
Qed.

Lemma restart_good fp content d R : GOOD fp content d R -> GOOD fp content (restart fp d) R /\
  forall h, look (restart fp d) h = look d h.
Proof.
  intros G. split; [|reflexivity]. destruct G. constructor; try assumption.
  - unfold restart, akeys. cbn [d_filt d_rows]. rewrite map_map. reflexivity.
  - intros h v E. discriminate.
Qed.

Lemma set_cache_good fp content d R c : GOOD fp content d R ->
  (forall h v, get h c = Some v -> get h (d_rows d) = Some v) -> GOOD fp content (set_cache d c) R.
Proof. intros G H. destruct G. constructor; assumption. Qed.

Lemma new_good fp content : GOOD fp content cdb_new [].
Proof.
  constructor; cbn.
  - constructor.
  - intros h v E. discriminate.
  - intros h h' v v' E. discriminate.
  - intros h v E. discriminate.
  - reflexivity.
  - intros h k [].
  - intros h [].
  - constructor.
  - intros h v E. discriminate.
Qed.

Lemma load_look fp content d R h : GOOD fp content d R -> load_raw d h = look d h.
Proof.
  intros G. unfold load_raw, look. destruct (get h (d_nur d)); [reflexivity|].
  destruct (get h (d_cache d)) as [v|] eqn:E; [|reflexivity]. now rewrite (g_cache _ _ _ _ G h v E).
Qed.

(* what the lookup of an insertion finds *)
Lemma existing_ok fp content d R cache depth h : GOOD fp content d R ->
  (forall h v, get h cache = Some v -> get h (d_rows d) = Some v) ->
  fst (existing fp d cache depth h) = option_map fst (look d h) /\
  (forall h' v, get h' (snd (existing fp d cache depth h)) = Some v -> get h' (d_rows d) = Some v).
Proof.
  intros G C. unfold existing, look. destruct (get h (d_nur d)) as [v|]; [split; [reflexivity|exact C]|].
  destruct (nmem (fp h) (d_filt d)) eqn:M.
  - unfold raw_idx_ins. destruct (Nat.leb NEW_CELLS_DEPTH_THRESHOLD depth).
    + destruct (get h cache) as [v|] eqn:E.
      * rewrite (C h v E). split; [reflexivity|exact C].
      * destruct (get h (d_rows d)) as [v|] eqn:E2; [|split; [reflexivity|exact C]].
        cbn [fst snd option_map]. split; [reflexivity|]. intros h' v'. rewrite nget_aset.
        destruct (N.eqb_spec h' h) as [->|]; [|apply C]. intros [= <-]. exact E2.
    + destruct (get h (d_rows d)); (split; [reflexivity|exact C]).
  - cbn [fst snd]. split; [|exact C]. destruct (get h (d_rows d)) as [v|] eqn:E; [exfalso|reflexivity].
    apply nmem_false in M. apply M. apply (Permutation_in _ (Permutation_sym (g_filt _ _ _ _ G))).
    apply in_map. apply nget_key. exists v. exact E.
Qed.
