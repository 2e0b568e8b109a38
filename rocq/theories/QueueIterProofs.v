(** Invariant of the merge iterator. *)
From Verif Require Export QueueIterModel QueueStoreSpec QueueKeysProofs QueueStoreInv.
From Coq Require Import ZifyBool ZifyN ZifyNat Lia Sorted.
Local Open Scope N_scope.

Local Opaque enc_mkey enc_qkey enc_shard be le lex de msg_header.

(** ** Rows *)
Definition rm (e : row) : msg := snd (snd e).
Definition good_row (part : N) (s : shard) (e : row) : Prop :=
  mk_ok (MK part s (m_key (rm e))) /\ ra_ok (m_dst (rm e)) /\
  fst e = enc_mkey (MK part s (m_key (rm e))) /\ fst (snd e) = msg_header (m_dst (rm e)).
Definition acc (recv : shard) (m : msg) : bool := contains_address recv (ra_wc (m_dst m)) (ra_prefix (m_dst m)).

Lemma header_roundtrip d : ra_ok d -> header_addr (msg_header d) = Some (ra_wc d, ra_prefix d).
Proof.
  intros [Hw Ha]. Local Transparent msg_header. unfold header_addr, msg_header.
  rewrite <- (app_nil_r (le 8 (ra_prefix d))), take_n_app by apply le_length.
  rewrite de_le_le.
  - rewrite to_i_to_u; [reflexivity|lia|]. cbn. lia.
  - change (256 ^ N.of_nat 8) with (2 ^ 64). unfold ra_prefix. apply N.div_lt_upper_bound; [discriminate|].
    change (2 ^ 192 * 2 ^ 64) with (2 ^ 256). exact Ha.
Qed.
Local Opaque msg_header.

Lemma row_result_good recv part s e : good_row part s e ->
  row_result recv e = Some (if acc recv (rm e) then RValue (rm e) else RSkip s (m_key (rm e))).
Proof.
  intros (Hk & Hd & Ek & Eh). unfold row_result. rewrite Ek, Eh.
  rewrite <- (app_nil_r (enc_mkey _)), dec_enc_mkey by exact Hk.
  rewrite header_roundtrip by exact Hd. cbn [mk_shard mk_key]. reflexivity.
Qed.

(** the last key of a list of messages *)
Fixpoint lastk (l : list msg) (d : option qkey) : option qkey :=
  match l with [] => d | m :: r => lastk r (Some (m_key m)) end.
Lemma lastk_app a : forall b d, lastk (a ++ b) d = lastk b (lastk a d).
Proof. induction a as [|x a IH]; intros b d; cbn; auto. Qed.

Definition optl {A} (o : option A) : list A := match o with Some x => [x] | None => [] end.

Lemma pull_spec recv part s l : Forall (good_row part s) l -> forall pos,
  exists sk oe rest pos', pull recv l pos = Some (option_map rm oe, rest, pos') /\
    l = sk ++ optl oe ++ rest /\ (oe = None -> rest = []) /\
    Forall (fun e => acc recv (rm e) = false) sk /\
    (forall e, oe = Some e -> acc recv (rm e) = true) /\
    (forall s', aget sh_eqb s' pos' = if sh_eqb s' s then lastk (map rm sk) (aget sh_eqb s pos) else aget sh_eqb s' pos).
Proof.
  induction 1 as [|e l He Hl IH]; intros pos.
  - exists [], None, [], pos. cbn. split; auto. split; auto. split; auto. split; auto. split; [discriminate|].
    intros s'. destruct (sh_eqb_spec s' s); subst; auto.
  - cbn [pull]. rewrite (row_result_good _ _ _ _ He). destruct (acc recv (rm e)) eqn:Ea.
    + exists [], (Some e), l, pos. cbn. split; auto. split; auto. split; [discriminate|]. split; auto.
      split; [intros e' [= <-]; auto|]. intros s'. destruct (sh_eqb_spec s' s); subst; auto.
    + destruct (IH (aset sh_eqb s (m_key (rm e)) pos)) as (sk & oe & rest & pos' & E1 & -> & E3 & E4 & E5 & E6).
      exists (e :: sk), oe, rest, pos'. split; auto. split; auto. split; auto. split; [constructor; auto|]. split; auto.
      intros s'. rewrite E6. cbn [map lastk].
      rewrite !(aget_aset sh_eqb sh_eqb_spec). rewrite sh_eqb_refl.
      destruct (sh_eqb_spec s' s); auto.
Qed.

Definition upd {A} (f : shard -> A) (s : shard) (v : A) : shard -> A := fun s' => if sh_eqb s' s then v else f s'.
Lemma upd_eq {A} f s (v : A) : upd f s v s = v. Proof. unfold upd. now rewrite sh_eqb_refl. Qed.
Lemma upd_ne {A} f s s' (v : A) : s' <> s -> upd f s v s' = f s'.
Proof. unfold upd. destruct (sh_eqb_spec s' s); congruence. Qed.

Definition key_le (x y : shard * msg) : Prop := qk_leb (m_key (snd x)) (m_key (snd y)) = true.
Definition of_shard (s : shard) (out : list (shard * msg)) : list msg := map snd (filter (fun x => sh_eqb (fst x) s) out).

Section Inv.
  Variable recv : shard.
  Variable part : N.
  Variable src : list (shard * list row).
  Notation keys := (map fst src).

  Record inv (iters : list (shard * list row)) (st : sit) (out : list (shard * msg))
             (A : shard -> list row) (H : shard -> option row) (B : shard -> list row) : Prop := {
    i_good : forall s, In s keys -> Forall (good_row part s) (B s);
    i_src : forall s L, In (s, L) src -> L = A s ++ optl (H s) ++ B s;
    i_nd : NoDup (map fst iters);
    i_it : forall s l, In (s, l) iters -> In s keys /\ l = B s;
    i_gone : forall s, In s keys -> ~ In s (map fst iters) -> B s = [];
    i_hnd : NoDup (map fst (it_heap st));
    i_heap : forall s m, In (s, m) (it_heap st) <-> In s keys /\ exists e, H s = Some e /\ rm e = m;
    i_inq : forall s, In s (it_inq st) <-> exists m, In (s, m) (it_heap st);
    i_hacc : forall s e, In s keys -> H s = Some e -> acc recv (rm e) = true;
    i_pos : forall s, aget sh_eqb s (it_pos st) = if existsb (sh_eqb s) keys then lastk (map rm (A s)) None else None;
    i_out : forall s, In s keys -> of_shard s out = filter (acc recv) (map rm (A s));
    i_outk : forall x, In x out -> In (fst x) keys;
    i_sorted : StronglySorted key_le out;
    i_le : forall x s e, In x out -> In s keys -> In e (optl (H s) ++ B s) -> acc recv (rm e) = true ->
       qk_leb (m_key (snd x)) (m_key (rm e)) = true }.

  Lemma existsb_sh s l : existsb (sh_eqb s) l = true <-> In s l.
  Proof.
    rewrite existsb_exists. split.
    - intros (x & Hx & E). destruct (sh_eqb_spec s x); [subst; auto|discriminate].
    - intros Hs. exists s. split; auto. apply sh_eqb_refl.
  Qed.

  Lemma filter_none {X} (f : X -> bool) l : Forall (fun x => f x = false) l -> filter f l = [].
  Proof. induction 1 as [|x l E _ IH]; cbn; auto. now rewrite E. Qed.

  Lemma inv_perm iters iters' st out A H B : Permutation iters iters' -> inv iters st out A H B ->
    inv iters' st out A H B.
  Proof.
    intros P [G1 G2 G3 G4 G5 G6 G7 G8 G9 G10 G11 G12 G13 G14]. split; auto.
    - eapply Permutation_NoDup; [apply Permutation_map, P|auto].
    - intros s l Hin. apply G4. eapply Permutation_in; [apply Permutation_sym, P|auto].
    - intros s Hs Hn. apply G5; auto. intros Hc. apply Hn. eapply Permutation_in; [apply Permutation_map, P|auto].
  Qed.

  Lemma refill_inv out order : forall st A H B,
    inv (it_iters st ++ order) st out A H B ->
    (forall s, In s keys -> ~ In s (map fst order) -> H s = None -> B s = []) ->
    exists st' A' H' B', refill recv order st = Some st' /\ inv (it_iters st') st' out A' H' B' /\
      (forall s, In s keys -> H' s = None -> B' s = []).
  Proof.
    induction order as [|[s l] r IH]; intros st A H B Hi Hd.
    - cbn [refill]. exists st, A, H, B. rewrite app_nil_r in Hi. split; auto.
    - cbn [refill]. pose proof Hi as [G1 G2 G3 G4 G5 G6 G7 G8 G9 G10 G11 G12 G13 G14].
      destruct (G4 s l) as [Hs El]; [apply in_app_iff; right; left; auto|].
      destruct (existsb (sh_eqb s) (it_inq st)) eqn:Eq.
      + apply existsb_sh in Eq. apply IH with (A := A) (H := H) (B := B).
        * cbn [it_iters]. rewrite <- app_assoc. cbn [app]. split; auto.
        * intros s' Hs' Hn En. destruct (sh_eqb_spec s' s) as [->|Ne].
          -- exfalso. apply G8 in Eq as (m & Hm). apply G7 in Hm as (_ & e & E & _). congruence.
          -- apply Hd; auto. cbn. intros [?|?]; [congruence|auto].
      + assert (Hni : ~ In s (it_inq st)). { intros Hc. apply existsb_sh in Hc. congruence. }
        assert (HN : H s = None).
        { destruct (H s) as [e|] eqn:E; auto. exfalso. apply Hni, G8. exists (rm e). apply G7. split; eauto. }
        assert (Hnr : ~ In s (map fst r) /\ ~ In s (map fst (it_iters st))).
        { rewrite map_app in G3. cbn in G3. split; intros Hc.
          - apply NoDup_remove_2 in G3. apply G3, in_app_iff; auto.
          - apply NoDup_remove_2 in G3. apply G3, in_app_iff; auto. }
        destruct (pull_spec recv part s l ltac:(rewrite El; auto) (it_pos st))
          as (sk & oe & rest & pos' & E1 & E2 & E3 & E4 & E5 & E6). rewrite E1.
        assert (Esrc : forall L, In (s, L) src -> L = (A s ++ sk) ++ optl oe ++ rest).
        { intros L HL. rewrite (G2 _ _ HL), HN, <- El, E2. cbn [optl app]. now rewrite <- app_assoc. }
        assert (Epos : forall s', aget sh_eqb s' pos' = if existsb (sh_eqb s') keys
                  then lastk (map rm (upd A s (A s ++ sk) s')) None else None).
        { intros s'. rewrite E6. destruct (sh_eqb_spec s' s) as [->|Ne].
          - rewrite upd_eq, map_app, lastk_app. rewrite G10. rewrite (proj2 (existsb_sh s keys)); auto.
          - rewrite upd_ne by auto. apply G10. }
        assert (Eout : forall s', In s' keys -> of_shard s' out = filter (acc recv) (map rm (upd A s (A s ++ sk) s'))).
        { intros s' Hs'. rewrite G11 by auto. destruct (sh_eqb_spec s' s) as [->|Ne].
          - rewrite upd_eq, map_app, filter_app. rewrite (filter_none _ (map rm sk)); [now rewrite app_nil_r|].
            rewrite Forall_map. exact E4.
          - now rewrite upd_ne by auto. }
        assert (Ele : forall x s' e, In x out -> In s' keys -> In e (optl (upd H s oe s') ++ upd B s rest s') ->
           acc recv (rm e) = true -> qk_leb (m_key (snd x)) (m_key (rm e)) = true).
        { intros x s' e Hx Hs' He Ha. destruct (sh_eqb_spec s' s) as [->|Ne].
          - rewrite !upd_eq in He. apply (G14 x s e); auto. rewrite <- El, E2, HN. cbn [optl app]. apply in_app_iff; auto.
          - rewrite !upd_ne in He by auto. apply (G14 x s' e); auto. }
        assert (Egood : forall s', In s' keys -> Forall (good_row part s') (upd B s rest s')).
        { intros s' Hs'. destruct (sh_eqb_spec s' s) as [->|Ne]; [rewrite upd_eq|rewrite upd_ne by auto; auto].
          pose proof (G1 s Hs) as F. rewrite <- El, E2 in F. apply Forall_app in F as [_ F]. apply Forall_app in F as [_ F]. exact F. }
        destruct oe as [e|]; cbn [option_map].
        * apply IH with (A := upd A s (A s ++ sk)) (H := upd H s (Some e)) (B := upd B s rest).
          -- split; cbn [it_iters it_heap it_inq it_pos]; auto.
             ++ intros s' L HL. destruct (sh_eqb_spec s' s) as [->|Ne]; [rewrite !upd_eq; auto|rewrite !upd_ne by auto; auto].
             ++ rewrite <- app_assoc. cbn [app]. rewrite !map_app in *. exact G3.
             ++ intros s' l0 Hin. rewrite !in_app_iff in Hin. cbn [In] in Hin.
                destruct (sh_eqb_spec s' s) as [->|Ne].
                ** split; auto. rewrite upd_eq. destruct Hin as [[Hin|[Hin|[]]]|Hin].
                   --- exfalso. apply (proj2 Hnr). now apply (in_map fst) in Hin.
                   --- congruence.
                   --- exfalso. apply (proj1 Hnr). now apply (in_map fst) in Hin.
                ** rewrite upd_ne by auto. apply G4. apply in_app_iff. destruct Hin as [[Hin|[Hin|[]]]|Hin]; auto; [congruence|right; right; auto].
             ++ intros s' Hs' Hn. rewrite !map_app, !in_app_iff in Hn. cbn in Hn.
                rewrite upd_ne; [apply G5; auto; rewrite map_app, in_app_iff; cbn; intuition|intros ->; apply Hn; auto].
             ++ cbn. constructor; auto. intros Hc. apply in_map_iff in Hc as ([s1 m1] & E & Hc). cbn in E. subst s1.
                apply Hni, G8. eauto.
             ++ intros s' m'. cbn [In]. rewrite G7. destruct (sh_eqb_spec s' s) as [->|Ne].
                ** rewrite upd_eq. split.
                   --- intros [[= <-]|(_ & e' & E & _)]; [eauto|congruence].
                   --- intros (_ & e' & [= <-] & <-). auto.
                ** rewrite upd_ne by auto. split; [intros [[= ? ?]|?]; [congruence|auto]|auto].
             ++ intros s'. cbn [In]. split.
                ** intros [<-|Hin]; [eauto|]. apply G8 in Hin as (m' & Hm). eauto.
                ** intros (m' & [[= <- <-]|Hm]); auto. right. apply G8. eauto.
             ++ intros s' e' Hs' E. destruct (sh_eqb_spec s' s) as [->|Ne].
                ** rewrite upd_eq in E. injection E as <-. apply E5; auto.
                ** rewrite upd_ne in E by auto. eauto.
          -- intros s' Hs' Hn E. destruct (sh_eqb_spec s' s) as [->|Ne]; [rewrite upd_eq in E; discriminate|].
             rewrite upd_ne in E by auto. rewrite upd_ne by auto. apply Hd; auto. cbn. intros [?|?]; [congruence|auto].
        * rewrite (E3 eq_refl) in *.
          apply IH with (A := upd A s (A s ++ sk)) (H := upd H s None) (B := upd B s []).
          -- split; cbn [it_iters it_heap it_inq it_pos]; auto.
             ++ intros s' L HL. destruct (sh_eqb_spec s' s) as [->|Ne]; [rewrite !upd_eq; auto|rewrite !upd_ne by auto; auto].
             ++ rewrite map_app in *. cbn in G3. apply NoDup_remove_1 in G3. exact G3.
             ++ intros s' l0 Hin. assert (Ne : s' <> s).
                { intros ->. apply in_app_iff in Hin as [Hin|Hin]; apply (in_map fst) in Hin; cbn in Hin; tauto. }
                rewrite upd_ne by auto. apply G4. apply in_app_iff in Hin. apply in_app_iff. destruct Hin; auto. right; right; auto.
             ++ intros s' Hs' Hn. destruct (sh_eqb_spec s' s) as [->|Ne]; [now rewrite upd_eq|]. rewrite upd_ne by auto.
                apply G5; auto. rewrite map_app, in_app_iff in *. cbn. intuition.
             ++ intros s' m'. rewrite G7. destruct (sh_eqb_spec s' s) as [->|Ne]; [rewrite upd_eq, HN; tauto|now rewrite upd_ne by auto].
             ++ intros s' e' Hs' E. destruct (sh_eqb_spec s' s) as [->|Ne]; [rewrite upd_eq in E; discriminate|rewrite upd_ne in E by auto; eauto].
          -- intros s' Hs' Hn E. destruct (sh_eqb_spec s' s) as [->|Ne]; [now rewrite upd_eq|].
             rewrite upd_ne in E by auto. rewrite upd_ne by auto. apply Hd; auto. cbn. intros [?|?]; [congruence|auto].
  Qed.

  (** rows of a shard are in ascending key order *)
  Definition rows_sorted (l : list row) : Prop := StronglySorted (fun a b => qk_ltb (m_key (rm a)) (m_key (rm b)) = true) l.

  Lemma SS_app {X} (R : X -> X -> Prop) a b : StronglySorted R (a ++ b) -> StronglySorted R a /\ StronglySorted R b /\
    forall x y, In x a -> In y b -> R x y.
  Proof.
    induction a as [|x a IH]; cbn; intros Hs.
    - split; [constructor|]. split; auto. intros ? ? [].
    - inversion Hs as [|? ? H1 H2]; subst. destruct (IH H1) as (I1 & I2 & I3). rewrite Forall_forall in H2. split.
      + constructor; auto. apply Forall_forall. intros y Hy. apply H2, in_app_iff; auto.
      + split; auto. intros u v [->|Hu] Hv; auto. apply H2, in_app_iff; auto.
  Qed.
  Lemma SS_snoc {X} (R : X -> X -> Prop) a x : StronglySorted R a -> (forall y, In y a -> R y x) -> StronglySorted R (a ++ [x]).
  Proof.
    induction a as [|y a IH]; cbn; intros Hs Hx; [repeat constructor|].
    inversion Hs; subst. constructor; auto. apply Forall_app. split; auto.
  Qed.

  Lemma of_shard_snoc s out x : of_shard s (out ++ [x]) = of_shard s out ++ (if sh_eqb (fst x) s then [snd x] else []).
  Proof. unfold of_shard. rewrite filter_app, map_app. cbn. now destruct (sh_eqb (fst x) s). Qed.

  Lemma next_inv st out A H B x st' : (forall s L, In (s, L) src -> rows_sorted L) ->
    inv (it_iters st) st out A H B -> it_next recv st (Some x) st' ->
    exists A' H' B', inv (it_iters st') st' (out ++ [x]) A' H' B'.
  Proof.
    intros Hrs Hi Hn. inversion Hn as [order st1 s m rest HP HR HH HM|]; subst.
    destruct (refill_inv out order (SIT [] (it_heap st) (it_inq st) (it_pos st)) A H B) as (st2 & A' & H' & B' & E & Hi' & Hx).
    { cbn [it_iters app]. apply Permutation_sym in HP. pose proof (inv_perm _ _ _ _ _ _ _ HP Hi) as [G1 G2 G3 G4 G5 G6 G7 G8 G9 G10 G11 G12 G13 G14].
      split; auto. }
    { intros s' Hs' Hno HN. eapply i_gone; eauto. intros Hc. apply Hno.
      eapply Permutation_in; [apply Permutation_map, Permutation_sym, HP|auto]. }
    rewrite HR in E. injection E as <-. destruct Hi' as [G1 G2 G3 G4 G5 G6 G7 G8 G9 G10 G11 G12 G13 G14].
    assert (Hin : In (s, m) (it_heap st1)). { eapply Permutation_in; [apply Permutation_sym, HH|left; auto]. }
    destruct (proj1 (G7 s m) Hin) as (Hs & e & He & Em).
    assert (Hnd : NoDup (map fst ((s, m) :: rest))). { eapply Permutation_NoDup; [apply Permutation_map, HH|auto]. }
    cbn in Hnd. inversion Hnd as [|? ? Hnr Hnd']; subst.
    assert (Hrest : forall s' m', In (s', m') rest <-> s' <> s /\ In (s', m') (it_heap st1)).
    { intros s' m'. split.
      - intros Hr. split; [intros ->; apply Hnr; now apply (in_map fst) in Hr|]. eapply Permutation_in; [apply Permutation_sym, HH|right; auto].
      - intros [Ne Hr]. eapply Permutation_in in Hr; [|exact HH]. destruct Hr as [[= ? ?]|Hr]; [congruence|auto]. }
    assert (Hmin : forall s' e', In s' keys -> In e' (optl (H' s') ++ B' s') -> acc recv (rm e') = true ->
              qk_leb (m_key (rm e)) (m_key (rm e')) = true).
    { intros s' e' Hs' He' Ha.
      assert (Hhead : exists e0, H' s' = Some e0).
      { destruct (H' s') as [e0|] eqn:E0; [eauto|]. rewrite (Hx _ Hs' E0) in He'. destruct He'. }
      destruct Hhead as (e0 & E0).
      assert (L0 : qk_leb (m_key (rm e)) (m_key (rm e0)) = true).
      { assert (Hh : In (s', rm e0) (it_heap st1)) by (apply G7; eauto).
        eapply Permutation_in in Hh; [|exact HH]. destruct Hh as [[= -> E1]|Hh].
        - rewrite E0 in He. injection He as ->. apply qk_leb_refl.
        - rewrite Forall_forall in HM. apply (HM _ Hh). }
      rewrite E0 in He'. cbn [optl app In] in He'. destruct He' as [<-|He']; auto.
      apply in_map_iff in Hs' as ([s1 L] & Es & HL). cbn in Es. subst s1.
      pose proof (Hrs _ _ HL) as Hso. rewrite (G2 _ _ HL), E0 in Hso. apply SS_app in Hso as (_ & Hso & _).
      cbn [optl app] in Hso. inversion Hso as [|? ? _ Hf]; subst. rewrite Forall_forall in Hf. specialize (Hf _ He').
      cbn beta in Hf. clear - L0 Hf. qk. }
    exists (upd A' s (A' s ++ [e])), (upd H' s None), B'. cbn [it_iters it_heap it_inq it_pos].
    split; cbn [it_iters it_heap it_inq it_pos]; auto.
    - intros s' L HL. rewrite (G2 _ _ HL) at 1. destruct (sh_eqb_spec s' s) as [->|Ne]; [rewrite !upd_eq, He|now rewrite !upd_ne by auto].
      cbn [optl app]. now rewrite <- app_assoc.
    - intros s' m'. rewrite Hrest, G7. destruct (sh_eqb_spec s' s) as [->|Ne].
      + rewrite upd_eq. split; [intros [? _]; congruence|intros (_ & ? & ? & _); discriminate].
      + rewrite upd_ne by auto. tauto.
    - intros s'. rewrite filter_In, G8. split.
      + intros [(m' & Hm) E]. exists m'. apply Hrest. split; auto. intros ->. now rewrite sh_eqb_refl in E.
      + intros (m' & Hm). apply Hrest in Hm as [Ne Hm]. split; [eauto|]. destruct (sh_eqb_spec s s'); [congruence|auto].
    - intros s' e' Hs' E. destruct (sh_eqb_spec s' s) as [->|Ne]; [rewrite upd_eq in E; discriminate|rewrite upd_ne in E by auto; eauto].
    - intros s'. rewrite (aget_aset sh_eqb sh_eqb_spec). destruct (sh_eqb_spec s' s) as [->|Ne].
      + rewrite upd_eq, map_app, lastk_app. cbn. rewrite (proj2 (existsb_sh s keys)); auto.
      + rewrite upd_ne by auto. apply G10.
    - intros s' Hs'. rewrite of_shard_snoc, G11 by auto. cbn [fst snd]. destruct (sh_eqb_spec s s') as [->|Ne].
      + rewrite upd_eq, map_app, filter_app. cbn. now rewrite (G9 _ _ Hs He).
      + rewrite upd_ne by congruence. now rewrite app_nil_r.
    - intros x Hx'. apply in_app_iff in Hx' as [Hx'|[<-|[]]]; auto.
    - apply SS_snoc; auto. intros y Hy. unfold key_le. cbn [snd]. apply (G14 y s e); auto; [rewrite He; left; auto|eauto].
    - intros x s' e' Hx' Hs' He' Ha.
      assert (He2 : In e' (optl (H' s') ++ B' s')).
      { destruct (sh_eqb_spec s' s) as [->|Ne]; [rewrite upd_eq in He'; apply in_app_iff; auto|rewrite upd_ne in He' by auto; auto]. }
      apply in_app_iff in Hx' as [Hx'|[<-|[]]]; [eauto|]. cbn [snd]. eauto.
  Qed.

  Lemma next_none_inv st out A H B st' :
    inv (it_iters st) st out A H B -> it_next recv st None st' ->
    exists A', inv (it_iters st') st' out A' (fun _ => None) (fun _ => []).
  Proof.
    intros Hi Hn. inversion Hn as [|order st1 HP HR HH]; subst.
    destruct (refill_inv out order (SIT [] (it_heap st) (it_inq st) (it_pos st)) A H B) as (st2 & A' & H' & B' & E & Hi' & Hx).
    { cbn [it_iters app]. apply Permutation_sym in HP. pose proof (inv_perm _ _ _ _ _ _ _ HP Hi) as [G1 G2 G3 G4 G5 G6 G7 G8 G9 G10 G11 G12 G13 G14].
      split; auto. }
    { intros s' Hs' Hno HN. eapply i_gone; eauto. intros Hc. apply Hno.
      eapply Permutation_in; [apply Permutation_map, Permutation_sym, HP|auto]. }
    rewrite HR in E. injection E as <-. exists A'. destruct Hi' as [G1 G2 G3 G4 G5 G6 G7 G8 G9 G10 G11 G12 G13 G14].
    assert (HN : forall s, In s keys -> H' s = None).
    { intros s Hs. destruct (H' s) as [e|] eqn:Ee; auto. exfalso.
      assert (Hc : In (s, rm e) (it_heap st')) by (apply G7; eauto). rewrite HH in Hc. destruct Hc. }
    assert (HB : forall s, In s keys -> B' s = []). { intros s Hs. apply Hx; auto. }
    split; auto.
    - intros s L HL. assert (Hs : In s keys) by now apply (in_map fst) in HL.
      rewrite (G2 _ _ HL), (HN _ Hs), (HB _ Hs). reflexivity.
    - intros s l Hl. destruct (G4 _ _ Hl) as [Hs ->]. split; auto.
    - intros s m. rewrite G7. split.
      + intros (Hs & e & E & _). rewrite (HN _ Hs) in E. discriminate.
      + intros (_ & e & E & _). discriminate.
    - discriminate.
  Qed.

  Lemma next_total st out A H B : inv (it_iters st) st out A H B ->
    ~ it_fails recv st /\ exists r st', it_next recv st r st'.
  Proof.
    intros Hi.
    assert (HT : forall order, Permutation order (it_iters st) ->
       exists st', refill recv order (SIT [] (it_heap st) (it_inq st) (it_pos st)) = Some st').
    { intros order HP.
      destruct (refill_inv out order (SIT [] (it_heap st) (it_inq st) (it_pos st)) A H B) as (st2 & A' & H' & B' & E & _ & _); eauto.
      - cbn [it_iters app]. apply Permutation_sym in HP. pose proof (inv_perm _ _ _ _ _ _ _ HP Hi) as [G1 G2 G3 G4 G5 G6 G7 G8 G9 G10 G11 G12 G13 G14].
        split; auto.
      - intros s' Hs' Hno HN. eapply i_gone; eauto. intros Hc. apply Hno.
        eapply Permutation_in; [apply Permutation_map, Permutation_sym, HP|auto]. }
    split.
    - intros (order & HP & HF). destruct (HT _ HP) as (st' & E). congruence.
    - destruct (HT (it_iters st) (Permutation_refl _)) as (st1 & E).
      destruct (it_heap st1) as [|x0 l0] eqn:Eh.
      + exists None, st1. eapply next_none; eauto.
      + assert (Hmin : forall l x, exists y rest, Permutation (x :: l) (y :: rest) /\
           Forall (fun z : shard * msg => qk_leb (m_key (snd y)) (m_key (snd z)) = true) rest).
        { clear. induction l as [|a l IH]; intros x.
          - exists x, []. split; auto.
          - destruct (IH a) as (y & rest & P & F). destruct (qk_leb (m_key (snd x)) (m_key (snd y))) eqn:Exy.
            + exists x, (a :: l). split; auto. rewrite P. constructor; auto. eapply Forall_impl; [|exact F].
              cbn. intros z Hz. qk.
            + exists y, (x :: rest). split; [rewrite P; apply perm_swap|]. constructor; auto. qk. }
        destruct (Hmin l0 x0) as ([s m] & rest & P & F).
        exists (Some (s, m)). eexists. eapply next_some; eauto. rewrite Eh. exact P.
  Qed.
End Inv.
