(** * Certificates: theorems. *)
From Coq Require Import List NArith Bool Lia ZArith ZifyN ZifyNat ZifyBool.
From Verif Require Import CertModel CertSpec CertBits CertInv CertStep CertProps CertThms.
Import ListNotations.
Open Scope N_scope.

Lemma is_certified_hgt s p : is_certified s p = true <-> 0 < hgt (c_word (s_cell s p)).
Proof. unfold is_certified, w_certified. rewrite land_height. rewrite negb_true_iff, N.eqb_neq. lia. Qed.

Section Final.
Variable D : N.
Hypothesis D1 : 1 <= D. Hypothesis D2 : D <= 255.

(** A certified point is at most [D] rounds below a directly proved point, at any moment. *)
Theorem cert_sound s q : reachable D s -> is_certified s q = true -> certified_by D (s_log s) (fun _ => True) q.
Proof.
  intros R H. destruct (reachable_inv D D1 D2 _ R) as (Ci&_). apply is_certified_hgt in H.
  destruct (i_up _ _ _ Ci _ H) as (p&d&A&B&C). exists p, d. split; [exact A|]. split; [|lia]. eapply back_mono; [apply incl_refl| |exact B]. auto.
Qed.

Lemma quiet_heights s : reachable D s -> quiescent s -> forall p q d, In (ECertify p) (s_log s) ->
  back (s_log s) (fun r => s_dead s r = false) p q d -> D + 1 <= hgt (word s q) + d.
Proof.
  intros R Q p q d Hp B. destruct (reachable_inv D D1 D2 _ R) as (Ci&_&Li).
  assert (G : forall r k, s_dead s r = false -> need s r k -> k <= hgt (word s r)).
  { intros r k Hd N. destruct (N Hd) as [X|(t&tr&X&_)]; [exact X|]. rewrite Q in X. discriminate. }
  induction B as [|q d i w r B IH Hin Hr Ok|q d i w r B IH Hin Hr Ok].
  - apply (i_top _ _ _ Ci), (i_top2 _ _ _ Ci) in Hp. unfold word. lia.
  - destruct (Li _ _ _ Hin) as [A _]. pose proof (G _ _ Ok (A _ Hr)). lia.
  - destruct (Li _ _ _ Hin) as [_ A]. pose proof (G _ _ Ok (A _ Hr)). lia.
Qed.

(** When no call is under way every such point is certified, if it is found
    through points whose certificates are not dropped. *)
Theorem cert_complete s q : reachable D s -> quiescent s ->
  certified_by D (s_log s) (fun r => s_dead s r = false) q -> is_certified s q = true.
Proof.
  intros R Q (p&d&A&B&C). apply is_certified_hgt. pose proof (quiet_heights s R Q _ _ _ A B). unfold word in *. lia.
Qed.

Theorem cert_exact s q : reachable D s -> quiescent s -> (forall r, s_dead s r = false) ->
  (is_certified s q = true <-> certified_by D (s_log s) (fun _ => True) q).
Proof.
  intros R Q Hd. split; [apply cert_sound; exact R|]. intros (p&d&A&B&C). apply cert_complete; [exact R|exact Q|].
  exists p, d. split; [exact A|]. split; [|exact C]. eapply back_mono; [apply incl_refl| |exact B]. auto.
Qed.

(** The order of the calls does not matter. *)
Theorem cert_order_independent s1 s2 : reachable D s1 -> reachable D s2 -> quiescent s1 -> quiescent s2 ->
  (forall r, s_dead s1 r = false) -> (forall r, s_dead s2 r = false) ->
  (forall p, In (ECertify p) (s_log s1) <-> In (ECertify p) (s_log s2)) ->
  (forall p i w, In (EDeps p i w) (s_log s1) <-> In (EDeps p i w) (s_log s2)) ->
  forall q, is_certified s1 q = is_certified s2 q.
Proof.
  intros R1 R2 Q1 Q2 N1 N2 Hc Hd q.
  assert (G : forall l l', (forall p, In (ECertify p) l -> In (ECertify p) l') -> (forall p i w, In (EDeps p i w) l -> In (EDeps p i w) l') ->
     certified_by D l (fun _ => True) q -> certified_by D l' (fun _ => True) q).
  { intros l l' A B (p&d&C&E&F). exists p, d. split; [auto|]. split; [|exact F]. induction E; [constructor|eapply back_inc; eauto; apply IHE; lia|eapply back_wit; eauto; apply IHE; lia]. }
  apply eq_true_iff_eq. rewrite (cert_exact _ _ R1 Q1 N1), (cert_exact _ _ R2 Q2 N2). split; apply G; intros; apply Hc || apply Hd; assumption.
Qed.

(** has_proof: exactly the points on which certify was called, at any moment. *)
Theorem has_proof_exact s p : reachable D s -> (has_proof s p = true <-> In (ECertify p) (s_log s)).
Proof.
  intros R. destruct (reachable_inv D D1 D2 _ R) as (Ci&_). unfold has_proof, w_has_proof. rewrite land_top, andb_true_iff.
  rewrite <- (i_top _ _ _ Ci p). split; [tauto|]. intros H. split; [|exact H]. apply (is_certified_hgt s p). apply (i_top2 _ _ _ Ci) in H. lia.
Qed.

(** Dependencies are set once, and never read before they are set. *)
Theorem cert_memory_safe s p : reachable D s -> ~ In (EBad p) (s_log s).
Proof. intros R. destruct (reachable_inv D D1 D2 _ R) as (Ci&_). apply (i_bad _ _ _ Ci). Qed.
Theorem cert_deps_once s p i w i' w' : reachable D s -> In (EDeps p i w) (s_log s) -> In (EDeps p i' w') (s_log s) -> i = i' /\ w = w'.
Proof.
  intros R H H'. destruct (reachable_inv D D1 D2 _ R) as (Ci&_). apply (i_dep2 _ _ _ Ci) in H, H'. rewrite H in H'. injection H' as -> ->. auto.
Qed.

(** set_committed succeeds at most once per point, only on certified points;
    and it does succeed on a certified point that was not committed before. *)
Theorem commit_once s p : reachable D s ->
  (length (filter (fun e => match e with ECommit q true => N.eqb q p | _ => false end) (s_log s)) <= 1)%nat /\
  (In (ECommit p true) (s_log s) -> is_certified s p = true /\ is_committed s p = true).
Proof.
  intros R. destruct (reachable_inv D D1 D2 _ R) as (Ci&_). split; [apply (i_com1 _ _ _ Ci)|].
  intros H. split; [apply is_certified_hgt, (i_com2 _ _ _ Ci), H|]. unfold is_committed, w_committed. rewrite land_committed. apply (i_com _ _ _ Ci). eauto.
Qed.
Theorem commit_result s p : exists s', step D (LCommit p) s = Some s' /\
  s_log s' = ECommit p (is_certified s p && negb (is_committed s p)) :: s_log s /\ is_committed s' p = true /\
  is_certified s' p = is_certified s p.
Proof.
  eexists. split; [reflexivity|]. cbn [add_ev set_cell s_log s_cell]. unfold is_committed, is_certified, w_committed, w_certified.
  cbn [add_ev set_cell s_log s_cell]. rewrite upd_same. cbn [c_word]. rewrite land_committed, !land_height, land_committed0, land_committed.
  split; [reflexivity|]. split.
  - unfold fC. rewrite N.lor_spec. apply orb_true_r.
  - rewrite <- !land_height, N.land_lor_distr_l. change (N.land COMMITTED NOT_FLAGS) with 0. rewrite N.lor_0_r. reflexivity.
Qed.

(** Heights only grow. *)
Lemma trav_mono s tid x t s' p : inv D s -> s_thr s tid = TTrav t -> trav_step s tid x t = Some s' -> hgt (word s p) <= hgt (word s' p).
Proof.
  intros Hi Ht E. assert (Tk := i_tr _ _ (proj1 (proj2 Hi)) _ _ Ht). destruct t as [h dir wit pend c i w].
  destruct Tk as (K1&K2&K3&K4&K5&K6). cbn [t_h t_dir t_wit t_pend t_c t_i t_w] in *.
  unfold trav_step in E. cbn [t_h t_dir t_wit t_pend t_c t_i t_w] in E.
  assert (G : forall q k, src D (s_log s) q k 0 -> hgt (word s p) <= hgt (c_word (upd (s_cell s) q (fst (certify_deeper (s_cell s q) k false)) p))).
  { intros q k Sq. unfold word. destruct (N.eq_dec p q) as [->|Hn]; [rewrite upd_same|rewrite upd_other by exact Hn; lia].
    destruct (certify_deeper (s_cell s q) k false) as [c' r] eqn:Ec. assert (kk : k < 4096) by (destruct Sq as (q0&d&_&_&X1&X2); lia).
    destruct (certify_spec _ _ _ _ _ (i_w _ _ _ (proj1 Hi) q) kk Ec) as [(A1&->&_)|(A1&A2&_)]; cbn [fst]; lia. }
  destruct pend as [|[k d] rest]; [|injection E as <-; apply N.le_refl].
  destruct dir as [|d rest].
  2:{ specialize (G d (h + 1) (K1 d (or_introl eq_refl))). destruct (s_dead s d); [injection E as <-; apply N.le_refl|].
      destruct (certify_deeper (s_cell s d) (h + 1) false) as [c' r]. cbn [fst] in G. destruct r; injection E as <-; exact G. }
  destruct wit; [|injection E as <-; apply N.le_refl].
  destruct (h =? 0); [injection E as <-; apply N.le_refl|].
  destruct c as [|a c].
  { destruct i, w; try destruct (h =? 1); injection E as <-; apply N.le_refl. }
  destruct (memb x (a :: c)) eqn:M; cbn [negb] in E; [|destruct i, w; discriminate].
  apply memb_in in M. specialize (G x h (K4 x M)).
  destruct (certify_deeper (s_cell s x) h false) as [c' r]. cbn [fst] in G. destruct i, w, r; injection E as <-; exact G.
Qed.

Lemma hgt_mono s l s' p : reachable D s -> step D l s = Some s' -> hgt (word s p) <= hgt (word s' p).
Proof.
  intros R E. assert (Hi := reachable_inv D D1 D2 _ R). destruct Hi as (Ci&Ti&Li). assert (Hi : inv D s) by (split; auto).
  assert (F : forall q m dp, m < 65536 -> N.land m NOT_FLAGS = 0 -> hgt (word s p) <= hgt (c_word (upd (s_cell s) q (Cell (N.lor (c_word (s_cell s q)) m) dp) p))).
  { intros q m dp Hm Hm0. unfold word. destruct (N.eq_dec p q) as [->|Hn]; [rewrite upd_same; cbn [c_word]|rewrite upd_other by exact Hn; lia].
    destruct (lor_word _ _ (i_w _ _ _ Ci q) Hm Hm0) as [-> _]. lia. }
  destruct l as [t q|t q i w|t|t|t x|q|q]; cbn [step] in E.
  - destruct (s_thr s t); try discriminate. destruct (certify_deeper (s_cell s q) (D + 1) true) as [c' r] eqn:Ec.
    assert (G : hgt (word s p) <= hgt (c_word (upd (s_cell s) q c' p))).
    { unfold word. destruct (N.eq_dec p q) as [->|Hn]; [rewrite upd_same|rewrite upd_other by exact Hn; lia].
      assert (hh : D + 1 < 4096) by lia.
      destruct (certify_spec _ _ _ _ _ (i_w _ _ _ Ci q) hh Ec) as [(A1&->&_)|(A1&A2&_)]; lia. }
    destruct r; injection E as <-; exact G.
  - destruct (s_thr s t); try discriminate. destruct (N.land (c_word (s_cell s q)) INIT_STARTED =? 0); injection E as <-; apply (F q INIT_STARTED); reflexivity.
  - destruct (s_thr s t) as [|q i w|q i w|]; try discriminate. injection E as <-. unfold word. cbn [set_thr set_cell s_cell].
    destruct (N.eq_dec p q) as [->|Hn]; [rewrite upd_same|rewrite upd_other by exact Hn]; apply N.le_refl.
  - destruct (s_thr s t) as [|q i w|q i w|]; try discriminate. destruct (1 <? N.land (c_word (s_cell s q)) NOT_FLAGS); injection E as <-; apply (F q INIT_COMPLETED); reflexivity.
  - destruct (s_thr s t) eqn:Et; try discriminate. eapply trav_mono; eauto.
  - injection E as <-. apply (F q COMMITTED); reflexivity.
  - injection E as <-. apply N.le_refl.
Qed.

(** Nothing is taken back. *)
Theorem cert_monotone s l s' p : reachable D s -> step D l s = Some s' ->
  (is_certified s p = true -> is_certified s' p = true) /\ (has_proof s p = true -> has_proof s' p = true) /\
  (is_committed s p = true -> is_committed s' p = true).
Proof.
  intros R E. assert (R' : reachable D s') by (eapply reach1; eauto).
  assert (Hlog : incl (s_log s) (s_log s')).
  { destruct l as [t q|t q i w|t|t|t x|q|q]; cbn [step] in E.
    - destruct (s_thr s t); try discriminate. destruct (certify_deeper (s_cell s q) (D + 1) true) as [c' []]; injection E as <-; intros e He; cbn; auto.
    - destruct (s_thr s t); try discriminate. destruct (N.land (c_word (s_cell s q)) INIT_STARTED =? 0); injection E as <-; intros e He; cbn; auto.
    - destruct (s_thr s t); try discriminate. injection E as <-. intros e He; cbn; auto.
    - destruct (s_thr s t); try discriminate. destruct (1 <? _); injection E as <-; intros e He; cbn; auto.
    - destruct (s_thr s t) as [| | |tr]; try discriminate. destruct tr as [h dir wit pend c i w]. unfold trav_step in E. cbn [t_h t_dir t_wit t_pend t_c t_i t_w] in E.
      destruct pend as [|[k d] rest]; [|injection E as <-; intros e He; exact He].
      destruct dir as [|d rest].
      2:{ destruct (s_dead s d); [injection E as <-; intros e He; exact He|]. destruct (certify_deeper (s_cell s d) (h + 1) false) as [c' []]; injection E as <-; intros e He; cbn; auto. }
      destruct wit; [|injection E as <-; intros e He; exact He].
      destruct (h =? 0); [injection E as <-; intros e He; exact He|].
      destruct c as [|a c]; [destruct i, w; try destruct (h =? 1); injection E as <-; intros e He; exact He|].
      destruct (memb x (a :: c)) eqn:M; cbn [negb] in E; [|destruct i, w; discriminate].
      destruct (certify_deeper (s_cell s x) h false) as [c' []]; destruct i, w; injection E as <-; intros e He; cbn; auto.
    - injection E as <-. intros e He. right. exact He.
    - injection E as <-. intros e He. exact He. }
  split; [|split].
  - rewrite !is_certified_hgt. pose proof (hgt_mono _ _ _ p R E). unfold word in *. lia.
  - rewrite !has_proof_exact by assumption. apply Hlog.
  - unfold is_committed, w_committed. rewrite !land_committed. destruct (reachable_inv D D1 D2 _ R) as (Ci&_). destruct (reachable_inv D D1 D2 _ R') as (Ci'&_).
    rewrite (i_com _ _ _ Ci p), (i_com _ _ _ Ci' p). intros (b&X). exists b. apply Hlog, X.
Qed.

(** ** Calls end *)
Theorem cert_progress s t : reachable D s -> s_thr s t <> TIdle -> exists l s', own_step t l /\ step D l s = Some s'.
Proof.
  intros R H. destruct (s_thr s t) as [|p i w|p i w|tr] eqn:Et; [congruence| | |].
  - exists (LWrite t). eexists. split; [reflexivity|]. cbn [step]. rewrite Et. reflexivity.
  - exists (LComplete t). cbn [step]. rewrite Et. destruct (1 <? N.land (c_word (s_cell s p)) NOT_FLAGS); eexists; (split; [reflexivity|reflexivity]).
  - destruct tr as [h dir wit pend c i w]. exists (LTrav t (hd 0 c)). cbn [step]. rewrite Et. unfold trav_step. cbn [t_h t_dir t_wit t_pend t_c t_i t_w].
    destruct pend as [|[k d] rest]; [|eexists; split; [reflexivity|reflexivity]].
    destruct dir as [|d rest].
    2:{ destruct (s_dead s d); [eexists; split; [reflexivity|reflexivity]|]. destruct (certify_deeper (s_cell s d) (h + 1) false) as [c' []]; eexists; (split; [reflexivity|reflexivity]). }
    destruct wit; [|eexists; split; [reflexivity|reflexivity]].
    destruct (h =? 0); [eexists; split; [reflexivity|reflexivity]|].
    destruct c as [|a c]; [destruct i, w; try destruct (h =? 1); eexists; (split; [reflexivity|reflexivity])|].
    cbn [hd]. assert (M : memb a (a :: c) = true) by (cbn; rewrite N.eqb_refl; reflexivity). rewrite M. cbn [negb].
    destruct (certify_deeper (s_cell s a) h false) as [c' []]; destruct i, w; eexists; (split; [reflexivity|reflexivity]).
Qed.

Definition zeros (l : list (nat * N)) : nat := length (filter (fun x => match fst x with O => true | _ => false end) l).
(** Lexicographic measure of a call. *)
Definition meas (t : tstate) : list nat :=
  match t with
  | TIdle => [0;0;0;0;0;0]
  | TSet1 _ _ _ => [3;0;0;0;0;0]
  | TSet2 _ _ _ => [2;0;0;0;0;0]
  | TTrav tr => [1; length (t_dir tr); length (t_wit tr); N.to_nat (t_h tr); length (t_c tr) + zeros (t_pend tr); length (t_pend tr)]
  end%nat.
Fixpoint lexlt (n : nat) (a b : list nat) : Prop :=
  match n, a, b with
  | S n, x :: a, y :: b => (x < y)%nat \/ (x = y /\ lexlt n a b)
  | _, _, _ => False
  end.
Lemma lexlt_acc n : forall a, Acc (lexlt n) a.
Proof.
  clear. induction n as [|n IH]; intros a; [constructor; intros b []|].
  destruct a as [|x a]; [constructor; intros [|? ?] []|].
  revert a. induction x as [x IHx] using (well_founded_induction Wf_nat.lt_wf). intros a.
  induction (IH a) as [a _ IHa]. constructor. intros [|y b] H; [destruct H|]. cbn in H. destruct H as [H|[-> H]]; [apply IHx, H|apply IHa, H].
Qed.

Lemma zeros_enq1 i w : zeros (enqueue 1 i w) = 0%nat.
Proof.
  clear. unfold enqueue, zeros. rewrite filter_app, app_length.
  assert (A : forall l k, filter (fun x : nat * N => match fst x with O => true | _ => false end) (map (pair (S k)) l) = []) by (induction l; intros; cbn; auto).
  rewrite !A. reflexivity.
Qed.

(** Each own step of a call ends it or makes it smaller; other steps leave it alone. *)
Lemma own_step_smaller s l s' t : step D l s = Some s' -> own_step t l -> s_thr s' t = TIdle \/ lexlt 6 (meas (s_thr s' t)) (meas (s_thr s t)).
Proof.
  clear D1 D2. intros E O. destruct l as [u q|u q i w|u|u|u x|q|q]; cbn in O; try contradiction; subst u; cbn [step] in E.
  - destruct (s_thr s t) as [|p i w|p i w|]; try discriminate. injection E as <-. right. cbn [set_thr s_thr]. rewrite upd_same. cbn. left. lia.
  - destruct (s_thr s t) as [|p i w|p i w|]; try discriminate. destruct (1 <? N.land (c_word (s_cell s p)) NOT_FLAGS) eqn:G; injection E as <-; cbn [set_thr s_thr]; rewrite upd_same; [|left; reflexivity].
    unfold start_trav. destruct (_ =? 0); [left; reflexivity|]. right. cbn. left. lia.
  - destruct (s_thr s t) as [| | |tr]; try discriminate. destruct tr as [h dir wit pend c i w]. unfold trav_step in E. cbn [t_h t_dir t_wit t_pend t_c t_i t_w] in E.
    destruct pend as [|[k d] rest].
    2:{ injection E as <-. right. cbn [set_thr s_thr]. rewrite upd_same.
        destruct k as [|[|k]]; cbn [meas t_h t_dir t_wit t_pend t_c t_i t_w lexlt]; right; (split; [reflexivity|]); right; (split; [reflexivity|]); right; (split; [reflexivity|]); right; (split; [reflexivity|]).
        - unfold zeros. cbn [filter fst length]. destruct (memb d c); [left; lia|]. destruct (s_dead s d); [left; lia|]. right. cbn [length]. split; [lia|]. left. lia.
        - unfold zeros. cbn [filter fst length]. right. split; [reflexivity|]. left. lia.
        - unfold zeros. cbn [filter fst length]. right. split; [reflexivity|]. left. lia. }
    destruct dir as [|d rest].
    2:{ assert (G : forall cl p tt, s_thr (set_thr (St cl (s_thr s) (s_dead s) tt) t (TTrav (Tr h rest wit p c i w))) t = TIdle \/
          lexlt 6 (meas (s_thr (set_thr (St cl (s_thr s) (s_dead s) tt) t (TTrav (Tr h rest wit p c i w))) t)) (meas (TTrav (Tr h (d :: rest) wit [] c i w)))).
        { intros cl p tt. right. cbn [set_thr s_thr]. rewrite upd_same. cbn [meas t_h t_dir t_wit t_pend t_c t_i t_w lexlt length]. right. split; [reflexivity|]. left. lia. }
        destruct (s_dead s d); [injection E as <-; apply (G (s_cell s) [] (s_log s))|].
        destruct (certify_deeper (s_cell s d) (h + 1) false) as [c' []]; injection E as <-; [apply G|apply G|].
        left. cbn [add_ev set_thr s_thr]. apply upd_same. }
    destruct wit as [|a wit].
    2:{ injection E as <-. right. cbn [set_thr s_thr]. rewrite upd_same. cbn [meas t_h t_dir t_wit t_pend t_c t_i t_w lexlt length]. right. split; [reflexivity|]. right. split; [reflexivity|]. left. lia. }
    destruct (h =? 0) eqn:H0; [injection E as <-; left; cbn [set_thr s_thr]; apply upd_same|].
    destruct c as [|a c].
    { assert (G : forall i' w', lexlt 6 (meas (s_thr (set_thr s t (TTrav (Tr (h - 1) [] [] [] i' w' []))) t)) (meas (TTrav (Tr h [] [] [] [] i w)))).
      { intros i' w'. cbn [set_thr s_thr]. rewrite upd_same. cbn [meas t_h t_dir t_wit t_pend t_c t_i t_w lexlt length].
        right. split; [reflexivity|]. right. split; [reflexivity|]. right. split; [reflexivity|]. left. lia. }
      destruct i, w; try destruct (h =? 1); injection E as <-; try (left; cbn [set_thr s_thr]; apply upd_same); right; apply G. }
    destruct (memb x (a :: c)) eqn:M; cbn [negb] in E; [|destruct i, w; discriminate]. apply memb_in in M. apply remove1_len in M.
    assert (G : forall cl p tt, zeros p = 0%nat -> lexlt 6 (meas (s_thr (set_thr (St cl (s_thr s) (s_dead s) tt) t (TTrav (Tr h [] [] p (remove1 x (a :: c)) i w))) t)) (meas (TTrav (Tr h [] [] [] (a :: c) i w)))).
    { intros cl p tt Hz. cbn [set_thr s_thr]. rewrite upd_same. cbn [meas t_h t_dir t_wit t_pend t_c t_i t_w lexlt]. rewrite Hz, M.
      right. split; [reflexivity|]. right. split; [reflexivity|]. right. split; [reflexivity|]. right. split; [reflexivity|]. left. change (zeros []) with 0%nat. lia. }
    destruct (certify_deeper (s_cell s x) h false) as [c' [|i' w'|]].
    + right. specialize (G (upd (s_cell s) x c') [] (s_log s) eq_refl). destruct i, w; injection E as <-; exact G.
    + right. specialize (G (upd (s_cell s) x c') _ (s_log s) (zeros_enq1 i' w')). destruct i, w; injection E as <-; exact G.
    + left. destruct i, w; injection E as <-; cbn [add_ev set_thr s_thr]; apply upd_same.
Qed.

Lemma other_step_same s l s' t : step D l s = Some s' -> ~ own_step t l -> s_thr s t <> TIdle -> s_thr s' t = s_thr s t.
Proof.
  clear D1 D2. intros E O H.
  assert (U : forall (f : N -> tstate) u x, t <> u -> upd f u x t = f t) by (intros; apply upd_other; assumption).
  destruct l as [u q|u q i w|u|u|u x|q|q]; cbn in O; cbn [step] in E.
  - destruct (s_thr s u) eqn:Eu; try discriminate. assert (t <> u) by congruence. destruct (certify_deeper (s_cell s q) (D + 1) true) as [c' []]; injection E as <-; cbn [set_thr set_cell add_ev s_thr]; auto.
  - destruct (s_thr s u) eqn:Eu; try discriminate. assert (t <> u) by congruence. destruct (N.land (c_word (s_cell s q)) INIT_STARTED =? 0); injection E as <-; cbn [set_thr set_cell add_ev s_thr]; auto.
  - assert (t <> u) by congruence. destruct (s_thr s u); try discriminate. injection E as <-. cbn [set_thr set_cell s_thr]. auto.
  - assert (t <> u) by congruence. destruct (s_thr s u); try discriminate. destruct (1 <? _); injection E as <-; cbn [set_thr set_cell add_ev s_thr]; auto.
  - assert (Htu : t <> u) by congruence. destruct (s_thr s u) as [| | |tr]; try discriminate. destruct tr as [h dir wit pend c i w]. unfold trav_step in E. cbn [t_h t_dir t_wit t_pend t_c t_i t_w] in E.
    destruct pend as [|[k d] rest]; [|injection E as <-; cbn [set_thr set_cell add_ev s_thr]; auto].
    destruct dir as [|d rest].
    2:{ destruct (s_dead s d); [injection E as <-; cbn [set_thr set_cell add_ev s_thr]; auto|]. destruct (certify_deeper (s_cell s d) (h + 1) false) as [c' []]; injection E as <-; cbn [set_thr set_cell add_ev s_thr]; auto. }
    destruct wit; [|injection E as <-; cbn [set_thr set_cell add_ev s_thr]; auto].
    destruct (h =? 0); [injection E as <-; cbn [set_thr set_cell add_ev s_thr]; auto|].
    destruct c as [|a c]; [destruct i, w; try destruct (h =? 1); injection E as <-; cbn [set_thr set_cell add_ev s_thr]; auto|].
    destruct (memb x (a :: c)); cbn [negb] in E; [|destruct i, w; discriminate].
    destruct (certify_deeper (s_cell s x) h false) as [c' []]; destruct i, w; injection E as <-; cbn [set_thr set_cell add_ev s_thr]; auto.
  - injection E as <-. reflexivity.
  - injection E as <-. reflexivity.
Qed.

(** A call that is given steps again and again ends, whatever the other calls do. *)
Theorem cert_calls_end (f : nat -> state) (l : nat -> label) t :
  (forall n, step D (l n) (f n) = Some (f (S n))) -> (forall n, exists m, (n <= m)%nat /\ own_step t (l m)) ->
  forall n, exists m, (n <= m)%nat /\ s_thr (f m) t = TIdle.
Proof.
  clear D1 D2. intros Hs Ho n.
  remember (meas (s_thr (f n) t)) as mm eqn:Em. revert n Em.
  induction (lexlt_acc 6 mm) as [mm _ IH]. intros n Em.
  destruct (Ho n) as (m&Hm&Om).
  assert (Dec : forall u, {own_step t u} + {~ own_step t u}).
  { intros []; cbn; try (right; tauto); apply N.eq_dec. }
  (* first own step at or after n, or idle before *)
  assert (G : forall k n, (n + k = m)%nat -> (exists j, (n <= j)%nat /\ s_thr (f j) t = TIdle) \/
     exists j, (n <= j)%nat /\ own_step t (l j) /\ s_thr (f j) t = s_thr (f n) t).
  { intros k. induction k as [|k IHk]; intros n0 Hk.
    - right. exists m. replace n0 with m by lia. auto.
    - destruct (Dec (l n0)) as [O|O]; [right; exists n0; auto|].
      destruct (s_thr (f n0) t) eqn:Et; [left; exists n0; auto| | |]; (assert (Hne : s_thr (f n0) t <> TIdle) by congruence;
        pose proof (other_step_same _ _ _ _ (Hs n0) O Hne) as Sm;
        destruct (IHk (S n0) ltac:(lia)) as [(j&A&B)|(j&A&B&C)]; [left; exists j; split; [lia|exact B]|right; exists j; split; [lia|]; split; [exact B|congruence]]). }
  destruct (G (m - n)%nat n ltac:(lia)) as [X|(j&A&B&C)]; [exact X|].
  destruct (own_step_smaller _ _ _ _ (Hs j) B) as [X|X]; [exists (S j); split; [lia|exact X]|].
  rewrite C, <- Em in X. destruct (IH _ X (S j) eq_refl) as (k&Hk&Ek). exists k. split; [lia|exact Ek].
Qed.
End Final.

(** ** A run: depth 2; point 1 includes 2, which includes 3, which includes 4;
    1 has witness 5. certify(1) runs while the deps of 2 are being set. *)
Definition xlabels : list label :=
  [LSetDeps 0 1 [2] [5]; LWrite 0; LComplete 0; LSetDeps 7 3 [4] []; LWrite 7; LComplete 7;
   LSetDeps 8 2 [3] []; LCertify 9 1; LTrav 9 0; LWrite 8; LTrav 9 0; LTrav 9 0; LTrav 9 5; LTrav 9 0;
   LComplete 8; LTrav 8 0; LTrav 8 0; LCommit 1; LCommit 1; LCommit 4].
Fixpoint exec (D : N) (l : list label) (s : state) : option state :=
  match l with [] => Some s | a :: r => match step D a s with Some s1 => exec D r s1 | None => None end end.
Lemma exec_reach D l : forall s s', reachable D s -> exec D l s = Some s' -> reachable D s'.
Proof.
  induction l as [|a l IH]; cbn; intros s s' R E; [injection E as <-; exact R|]. destruct (step D a s) as [s1|] eqn:E1; [|discriminate].
  eapply IH; [|exact E]. eapply reach1; eauto.
Qed.
Definition summary (s : state) : list event * list bool * list bool * list tstate :=
  (s_log s, map (is_certified s) [1;2;3;4;5], map (has_proof s) [1;2], map (s_thr s) [0;7;8;9]).
Lemma cert_run : option_map summary (exec 2 xlabels state0) =
  Some ([ECommit 4 false; ECommit 1 false; ECommit 1 true; EDeps 2 [3] []; ECertify 1; EDeps 3 [4] []; EDeps 1 [2] [5]],
        [true; true; true; false; true], [true; false], [TIdle; TIdle; TIdle; TIdle]).
Proof. vm_compute. reflexivity. Qed.
Lemma cert_nonvacuous : exists s, reachable 2 s /\ is_certified s 3 = true /\ is_certified s 4 = false /\ is_certified s 5 = true /\
  In (EDeps 3 [4] []) (s_log s) /\ certified_by 2 (s_log s) (fun _ => True) 3.
Proof.
  pose proof cert_run as E. destruct (exec 2 xlabels state0) as [s|] eqn:X; [|discriminate]. exists s.
  assert (R : reachable 2 s) by (eapply exec_reach; [apply reach0|exact X]). split; [exact R|].
  unfold summary in E. cbn [option_map map] in E. injection E as El _ _ E3 E4 E5 _ _ _ _ _ _.
  split; [exact E3|]. split; [exact E4|]. split; [exact E5|]. split; [rewrite El; cbn; auto 10|]. apply cert_sound; [lia|lia|exact R|exact E3].
Qed.
Lemma cert_quiet_example : exists s, reachable 2 s /\ quiescent s /\ (forall r, s_dead s r = false) /\ In (ECertify 1) (s_log s).
Proof.
  assert (X : exists s, exec 2 xlabels state0 = Some s /\ (quiescent s /\ (forall r, s_dead s r = false) /\ In (ECertify 1) (s_log s))).
  { eexists. split; [vm_compute; reflexivity|]. split; [|split; [reflexivity|cbn; auto 10]].
    intros t. cbn [s_thr]. repeat match goal with |- context [match ?a with _ => _ end] => destruct a; try reflexivity end. }
  destruct X as (s&E&X). exists s. split; [eapply exec_reach; [apply reach0|exact E]|exact X].
Qed.
