(** * Growing a grammar: inputs without the new token (proofs) *)
From Coq Require Import List Arith Lia Bool Sorted.
From Verif Require Import Lib Grammar LrModel LrSpec LrSets LrNew LrTop ParseModel Trees ParseSpec ParseInv ParseComplete GramFacts ParseTop RuleMap LoopSpec MachSpec NestSpec GrowSpec GrowProofs.
Import ListNotations.

(** ** Reference parsers that agree on some strings *)
Section Agree.
  Context {N T E : Type} (tix : T -> nat).
  Variables (rules rules' : list rule) (st ss ss' : nat) (gens gens' : list (reducer N T E)) (w : list T).
  Variables (ok : list sym -> Prop) (tok : term -> Prop).
  Hypothesis Htok : forall i x, nth_error w i = Some x -> tok (TSym (tix x)).
  Hypothesis Heoi : tok TEoi.
  Hypothesis ok_firstn : forall m g, ok g -> ok (firstn m g).
  Hypothesis ok_tok : forall g t, ok g -> tok t -> ok (g ++ [TM t]).
  Hypothesis ok_err : forall g, ok g -> ok (g ++ [TM TErr]).
  Hypothesis ok_nt : forall g A, ok g -> ok (g ++ [NT A]).
  Hypothesis ok_nil : ok [].
  Hypothesis Hsh : forall g t, ok g -> tok t -> (can_shift rules st ss g t <-> can_shift rules' st ss' g t).
  Hypothesis Hac : forall g t, ok g -> tok t -> (can_accept rules st ss g t <-> can_accept rules' st ss' g t).
  Hypothesis Hre : forall g t k, ok g -> tok t -> (can_reduce rules st ss g t k <-> can_reduce rules' st ss' g t k).
  Hypothesis Her : forall g k, ok g -> (wants_error (augment rules st ss) (length rules) g k <-> wants_error (augment rules' st ss') (length rules') g k).
  Hypothesis Hru : forall k r, nth_error rules k = Some r -> nth_error rules' k = Some r /\ nth_error gens k = nth_error gens' k.
  Hypothesis Hlr : forall g t k, ok g -> can_reduce rules st ss g t k -> exists r, nth_error rules k = Some r.

  Lemma tok_look c : tok (look (N := N) tix w c).
  Proof. unfold look. destruct (nth_error w (c_pos c)) as [x|] eqn:Ex; eauto. Qed.
  Lemma ag_reduce g t k : ok g -> tok t -> (do_reduce rules st ss g t k <-> do_reduce rules' st ss' g t k).
  Proof.
    intros H1 H2. unfold do_reduce. rewrite (Hsh g t), (Hac g t), (Hre g t) by auto. split; intros (A & B & C & D); repeat split; auto; try apply C; intros k' Hk'; apply D; apply Hre; auto.
  Qed.
  Lemma ag_recover g t : ok g -> tok t -> (do_recover rules st ss g t <-> do_recover rules' st ss' g t).
  Proof. intros H1 H2. unfold do_recover. rewrite (Hsh g t), (Hac g t) by auto. split; intros (A & B & C); repeat split; auto; intros k Hk; apply (C k); apply Hre; auto. Qed.
  Lemma ag_accept g t : ok g -> tok t -> (do_accept rules st ss g t <-> do_accept rules' st ss' g t).
  Proof. intros H1 H2. unfold do_accept. rewrite (Hsh g t), (Hac g t) by auto. tauto. Qed.
  Lemma ag_usable act g k : ok g -> (usable rules st ss act g k <-> usable rules' st ss' act g k).
  Proof. intros H1. unfold usable. rewrite (Her g k) by auto. tauto. Qed.
  Lemma ag_resumes c m : ok (c_syms (N := N) c) -> (resumes tix rules st ss w c m <-> resumes tix rules' st ss' w c m).
  Proof.
    intros H1. unfold resumes. split; intros (A & B & k & C); (split; [exact A|split; [exact B|]]); exists k; apply ag_usable in C; auto.
  Qed.
  Lemma back k r l : (exists t g, ok g /\ tok t /\ do_reduce rules' st ss' g t k) -> nth_error rules' k = Some r -> l = gens' -> nth_error rules k = Some r /\ nth_error gens k = nth_error gens' k.
  Proof.
    intros (t & g & H1 & H2 & H3) Hr _. apply ag_reduce in H3; auto. destruct H3 as (_ & _ & H3 & _). destruct (Hlr _ _ _ H1 H3) as [r' Hr']. destruct (Hru _ _ Hr') as [A B]. split; congruence.
  Qed.
  Lemma ag_mstep c c1 : ok (c_syms c) -> (mstep tix rules st ss gens w c c1 <-> mstep tix rules' st ss' gens' w c c1).
  Proof.
    intros Hok. pose proof (tok_look c) as Hl. split; intros Hs.
    - inversion Hs as [x D1 D2 E1|k r l l' args f v D1 D2 D3 D4 D5 D6 D7 E1|m act D1 D2 D3 D4 D5 i dropped E1].
      + apply m_shift; auto. apply Hsh; auto.
      + destruct (Hru _ _ D2) as [A B]. eapply m_reduce; eauto; [apply ag_reduce; auto|congruence].
      + apply m_recover; auto; [apply ag_recover; auto|apply ag_resumes; auto|intros m' Hm'; apply D3, ag_resumes; auto|]. intros k. rewrite D5. apply ag_usable. auto.
    - inversion Hs as [x D1 D2 E1|k r l l' args f v D1 D2 D3 D4 D5 D6 D7 E1|m act D1 D2 D3 D4 D5 i dropped E1].
      + apply m_shift; auto. apply Hsh; auto.
      + destruct (back k r gens') as [A B]; eauto 6. eapply m_reduce; eauto; [apply ag_reduce; auto|congruence].
      + apply m_recover; auto; [apply ag_recover; auto|apply ag_resumes; auto|intros m' Hm'; apply D3, ag_resumes; auto|]. intros k. rewrite D5. symmetry. apply ag_usable. auto.
  Qed.
  Lemma ag_mend c r : ok (c_syms c) -> (mend tix rules st ss gens w c r <-> mend tix rules' st ss' gens' w c r).
  Proof.
    intros Hok. pose proof (tok_look c) as Hl. split; intros He.
    - inversion He as [A v i D1 D2 E1|D1 D2 E1|k r0 l l' args f x D1 D2 D3 D4 D5 D6 D7 E1|k r0 l l' args f D1 D2 D3 D4 D5 D6 D7 E1|k r0 l l' D1 D2 D3 D4 D5 E1].
      + eapply e_accept; eauto. apply ag_accept; auto.
      + apply e_not_found; [apply ag_recover; auto|]. intros m Hm. apply (D2 m). apply ag_resumes; auto.
      + destruct (Hru _ _ D2) as [A B]. eapply e_error; eauto; [apply ag_reduce; auto|congruence].
      + destruct (Hru _ _ D2) as [A B]. eapply e_panic; eauto; [apply ag_reduce; auto|congruence].
      + destruct (Hru _ _ D2) as [A B]. eapply e_slice; eauto. apply ag_reduce; auto.
    - inversion He as [A v i D1 D2 E1|D1 D2 E1|k r0 l l' args f x D1 D2 D3 D4 D5 D6 D7 E1|k r0 l l' args f D1 D2 D3 D4 D5 D6 D7 E1|k r0 l l' D1 D2 D3 D4 D5 E1].
      + eapply e_accept; eauto. apply ag_accept; auto.
      + apply e_not_found; [apply ag_recover; auto|]. intros m Hm. apply (D2 m). apply ag_resumes; auto.
      + destruct (back k r0 gens') as [A B]; eauto 6. eapply e_error; eauto; [apply ag_reduce; auto|congruence].
      + destruct (back k r0 gens') as [A B]; eauto 6. eapply e_panic; eauto; [apply ag_reduce; auto|congruence].
      + destruct (back k r0 gens') as [A B]; eauto 6. eapply e_slice; eauto. apply ag_reduce; auto.
  Qed.
  Lemma c_syms_app (a b : list (cell (N := N))) p f ac : c_syms (mk_conf (a ++ b) p f ac) = map csym a ++ map csym b.
  Proof. unfold c_syms. cbn. apply map_app. Qed.
  Lemma ag_ok c c1 : ok (c_syms c) -> mstep tix rules st ss gens w c c1 -> ok (c_syms c1).
  Proof.
    intros Hok Hs. inversion Hs as [x D1 D2 E1|k r l l' args f v D1 D2 D3 D4 D5 D6 D7 E1|m act D1 D2 D3 D4 D5 i dropped E1]; rewrite c_syms_app; cbn [map csym].
    - apply ok_tok; eauto.
    - apply ok_nt. unfold c_syms in Hok. rewrite D3, map_app in Hok. pose proof (ok_firstn (length l) _ Hok) as H1. rewrite firstn_app, map_length, Nat.sub_diag in H1. cbn [firstn] in H1. rewrite app_nil_r in H1.
      rewrite <- (map_length csym l) in H1. rewrite firstn_all in H1. auto.
    - apply ok_err. rewrite <- firstn_map. apply ok_firstn. exact Hok.
  Qed.
  Lemma ag_msteps n : forall c c1, ok (c_syms c) -> (msteps tix rules st ss gens w n c c1 <-> msteps tix rules' st ss' gens' w n c c1) /\ (msteps tix rules st ss gens w n c c1 -> ok (c_syms c1)).
  Proof.
    induction n as [|n IH]; intros c c1 Hok.
    - split; [split; intros H; inversion H; subst; constructor|]. intros H; inversion H; subst; auto.
    - split; [split|]; intros H; inversion H as [|? ? c0 ? Hs Hss]; subst.
      + econstructor; [apply ag_mstep; eauto|]. apply IH; auto. eapply ag_ok; eauto.
      + assert (Hs' : mstep tix rules st ss gens w c c0) by (apply ag_mstep; auto). econstructor; [exact Hs'|]. apply IH; auto. eapply ag_ok; eauto.
      + apply (IH c0 c1); auto. eapply ag_ok; eauto.
  Qed.
  Lemma ag_ends r : mach_ends tix rules st ss gens w r <-> mach_ends tix rules' st ss' gens' w r.
  Proof.
    unfold mach_ends. split; intros (n & c & Hs & He); exists n, c.
    - destruct (ag_msteps n c_init c ok_nil) as [A B]. split; [apply A; auto|apply ag_mend; auto].
    - destruct (ag_msteps n c_init c ok_nil) as [A B]. apply A in Hs. split; auto. apply ag_mend; auto.
  Qed.
  Lemma ag_forever : mach_forever tix rules st ss gens w <-> mach_forever tix rules' st ss' gens' w.
  Proof. unfold mach_forever. split; intros H n; destruct (H n) as [c Hc]; exists c; apply (ag_msteps n c_init c ok_nil); auto. Qed.
End Agree.

(** ** The grown grammar *)
Section Grown.
  Variables (rules : list rule) (st A key : nat) (body : list sym) (c : term) (ss z : nat).
  Hypothesis Heoi : no_eoi rules.
  Hypothesis Hst : In st (nonterminals rules).
  Hypothesis HA : firstl rules [NT A] c.
  Hypothesis Hkey : ~ has_terminal rules (TSym key).
  Hypothesis Hbody : delimited rules st key body.
  Hypothesis Hprod : productive rules.
  Let H := rules ++ [key_rule A key body].
  Let n := length rules.
  Let rs := augment H st ss.
  Let sr := length H.
  Let G := augment rules st z.
  Hypothesis Hss : ~ In ss (nonterminals H).
  Hypothesis Hz : ~ In z (nonterminals rules).
  Notation t0 := (TSym key).
  Definition ok (g : list sym) : Prop := ~ In (TM t0) g.

  Lemma sim_sr : sr = S n.
  Proof. unfold sr, H. rewrite app_length. cbn. unfold n. lia. Qed.
  Lemma kmap_lt k : k < n -> kmap rules A key body k = k.
  Proof. apply kmap_old. Qed.
  Lemma sim_nth k r : nth_error rules k = Some r -> nth_error rs k = Some r /\ nth_error G k = Some r /\ k < n.
  Proof.
    intros Hk. assert (Hl : k < n) by (apply nth_error_Some; congruence). split; [|split; auto].
    - unfold rs, augment, H. rewrite <- app_assoc. rewrite nth_error_app1; auto.
    - unfold G. rewrite augment_old; auto. unfold n in Hl. lia.
  Qed.
  (** the items of the grammar stay valid *)
  Lemma stays g it : valid G n g it -> valid rs sr g (mk_item (if Nat.eq_dec (i_rule it) n then sr else i_rule it) (i_pos it) (i_la it)).
  Proof.
    assert (Hr : forall k r, nth_error G k = Some r -> exists r', nth_error rs (if Nat.eq_dec k n then sr else k) = Some r' /\ r_rhs r' = r_rhs r).
    { intros k r Hk. apply aug_cases in Hk as [[Hl Hk]|[-> ->]].
      - destruct (sim_nth _ _ Hk) as (A1 & _ & A2). destruct (Nat.eq_dec k n); [lia|]. eauto.
      - destruct (Nat.eq_dec (length rules) n) as [_|E]; [|contradiction]. exists (mk_rule ss [NT st]). split; [apply augment_start|auto]. }
    induction 1 as [|g k p la r X Hv IH Hk Hp|g k p la r B k' r' t Hv IH Hk Hp Hk' HB Ht]; cbn [i_rule i_pos i_la] in *.
    - destruct (Nat.eq_dec n n); [constructor|contradiction].
    - destruct (Hr _ _ Hk) as (r1 & H1 & E1). eapply valid_goto; [exact IH|exact H1|]. rewrite E1. auto.
    - destruct (Hr _ _ Hk) as (r1 & H1 & E1). apply aug_cases in Hk' as [[Hl' Hk']|[-> ->]].
      + destruct (sim_nth _ _ Hk') as (A1 & _ & A2). destruct (Nat.eq_dec k' n); [lia|]. eapply valid_closure; [exact IH|exact H1|rewrite E1; exact Hp|exact A1|exact HB|]. rewrite E1. apply firsts_firstl. apply firsts_firstl in Ht.
        apply (firstl_incl rules rs); [intros x Hx; unfold rs, augment, H; rewrite !in_app_iff; auto|].
        assert (HF : ~ In (NT z) (skipn (S p) (r_rhs r))).
        { intros HI. assert (HI2 : In (NT z) (r_rhs r)) by (rewrite <- (firstn_skipn (S p) (r_rhs r)); apply in_or_app; auto). apply aug_cases in Hk as [[_ Hk]|[_ ->]]; [exact (ss_rhs rules z Hz r (nth_error_In _ _ Hk) HI2)|].
          cbn in HI2. destruct HI2 as [E|[]]. injection E as E. apply Hz. rewrite <- E. auto. }
        clear - Ht HF Hz. assert (HF2 : ~ In (NT z) (skipn (S p) (r_rhs r) ++ [TM la])) by (rewrite in_app_iff; cbn; intros [X|[X|[]]]; [auto|discriminate]). clear HF. revert HF2.
        induction Ht as [t l|r0 l t Hr0 Hf IH|X l t Hd Hf IH]; intros Hn; [constructor| |]; cbn in Hn.
        * assert (In r0 rules) by (apply (aug_In rules st z); [exact Hr0|intros E; apply Hn; left; congruence]). constructor; auto. apply IH. apply (ss_rhs rules z Hz); auto.
        * apply fl_skip; [apply (proj1 (der_aug0 rules st z Hz)); auto|auto].
      + exfalso. cbn in HB. subst B. apply aug_cases in Hk as [[_ Hk]|[_ ->]]; [exact (ss_rhs rules z Hz r (nth_error_In _ _ Hk) (nth_error_In _ _ Hp))|].
        destruct p as [|p]; [|destruct p; discriminate]. injection Hp as Hp. apply Hz. rewrite <- Hp. auto.
  Qed.
  (** behind strings without the new token, the items of the grown grammar are those of the grammar *)
  Lemma comes g it : valid rs sr g it -> ok g -> (i_rule it = n /\ i_pos it = 0) \/
    exists la', i_rule it <> n /\ valid G n g (mk_item (kmap rules A key body (i_rule it)) (i_pos it) la') /\ (i_la it <> t0 -> la' = i_la it).
  Proof.
    intros Hv Hok. destruct (embed rules st A key body c ss z Heoi Hst HA Hkey Hbody Hss Hz Hprod g it Hv) as [(D & e & d & la' & Hi & Hk & HD & Hv' & Hrel & _)|[(Ek & Ep & _)|(Ek & q & g0 & Ep & Hq & Eg)]]; auto.
    - right. exists la'. destruct Hi as (_ & [(-> & -> & ->)|(g0 & p & -> & _)]); [|exfalso; apply Hok; rewrite in_app_iff; cbn; auto]. split; auto. split; auto. intros Hn. destruct Hrel as [[E _]|[[-> ->]|[_ ->]]]; auto. contradiction.
    - exfalso. apply Hok. rewrite Eg, in_app_iff. cbn. auto.
  Qed.
  Lemma rs_old k r : nth_error rs k = Some r -> k <> n -> (k < n /\ nth_error rules k = Some r /\ nth_error G k = Some r) \/ (k = sr /\ r = mk_rule ss [NT st]).
  Proof.
    intros Hr Hk. destruct (rs_nth rules st A key body ss k r Hr) as [[Hl Hr']|[[E _]|[-> ->]]]; auto; [|contradiction]. left. split; auto. split; auto. apply (sim_nth _ _ Hr').
  Qed.
  Lemma sim_wants g t : ok g -> t <> t0 -> (wants rs sr g (TM t) <-> wants G n g (TM t)).
  Proof.
    intros Hok Ht. split.
    - intros (k & p & la & r & Hv & Hr & Hp). destruct (comes _ _ Hv Hok) as [[Ek Ep]|(la' & Hk & Hv' & _)]; cbn [i_rule i_pos i_la] in *.
      + subst k p. destruct (rs_nth rules st A key body ss n r Hr) as [[Hl _]|[[_ ->]|[E _]]]; [unfold n in Hl; lia| |pose proof sim_sr as E2; unfold sr, H in E2; rewrite E in E2; lia]. cbn in Hp. congruence.
      + destruct (rs_old _ _ Hr Hk) as [(Hl & _ & Hr')|[_ ->]]; [|destruct p as [|[|p]]; discriminate]. rewrite (kmap_lt k Hl) in Hv'. exists k, p, la', r. auto.
    - intros (k & p & la & r & Hv & Hr & Hp). apply stays in Hv. cbn [i_rule i_pos i_la] in Hv. apply aug_cases in Hr as [[Hl Hr]|[_ ->]]; [|destruct p as [|[|p]]; discriminate]. destruct (sim_nth _ _ Hr) as (A1 & _ & A2).
      destruct (Nat.eq_dec k n); [lia|]. exists k, p, la, r. auto.
  Qed.
  Lemma sim_complete g k t : ok g -> t <> t0 -> k < n -> (complete rs sr g k t <-> complete G n g k t).
  Proof.
    intros Hok Ht Hl. split; intros (r & Hr & Hv).
    - destruct (comes _ _ Hv Hok) as [[Ek Ep]|(la' & Hk & Hv' & E)]; cbn [i_rule i_pos i_la] in *; [lia|]. rewrite (kmap_lt k Hl), (E Ht) in Hv'. destruct (rs_old _ _ Hr Hk) as [(_ & _ & Hr')|[E2 _]]; [|rewrite sim_sr in E2; lia]. exists r. auto.
    - apply stays in Hv. cbn [i_rule i_pos i_la] in Hv. destruct (Nat.eq_dec k n); [lia|]. apply aug_cases in Hr as [[_ Hr]|[E _]]; [|unfold n in Hl; lia]. destruct (sim_nth _ _ Hr) as (A1 & _). exists r. auto.
  Qed.
  Lemma sim_accepts g : ok g -> (complete rs sr g sr TEoi <-> complete G n g n TEoi).
  Proof.
    intros Hok. split; intros (r & Hr & Hv).
    - destruct (comes _ _ Hv Hok) as [[Ek Ep]|(la' & Hk & Hv' & E)]; cbn [i_rule i_pos i_la] in *; [rewrite sim_sr in Ek; lia|]. destruct (rs_old _ _ Hr Hk) as [(Hl & _)|[_ ->]]; [rewrite sim_sr in Hl; lia|].
      rewrite E in Hv' by discriminate. assert (Ek : kmap rules A key body sr = n) by apply kmap_sr. rewrite Ek in Hv'. exists (mk_rule z [NT st]). split; [apply augment_start|exact Hv'].
    - apply stays in Hv. cbn [i_rule i_pos i_la] in Hv. destruct (Nat.eq_dec n n); [|contradiction]. apply aug_cases in Hr as [[Hl _]|[_ ->]]; [unfold n in Hl; lia|]. exists (mk_rule ss [NT st]). split; [apply augment_start|exact Hv].
  Qed.
  Lemma sim_new g t : ok g -> ~ complete rs sr g n t.
  Proof.
    intros Hok (r & Hr & Hv). destruct (comes _ _ Hv Hok) as [[Ek Ep]|(la' & Hk & _)]; cbn [i_rule i_pos i_la] in *; [|contradiction].
    destruct (rs_nth rules st A key body ss n r Hr) as [[Hl _]|[[_ ->]|[E _]]]; [unfold n in Hl; lia|discriminate|pose proof sim_sr as E2; unfold sr, H in E2; rewrite E in E2; lia].
  Qed.
  Lemma sim_error g k : ok g -> (wants_error rs sr g k <-> wants_error G n g k).
  Proof.
    intros Hok. split; intros (p & la & r & Hv & Hr & Hp).
    - destruct (comes _ _ Hv Hok) as [[Ek Ep]|(la' & Hk & Hv' & _)]; cbn [i_rule i_pos i_la] in *.
      + subst k p. destruct (rs_nth rules st A key body ss n r Hr) as [[Hl _]|[[_ ->]|[E _]]]; [unfold n in Hl; lia|discriminate|pose proof sim_sr as E2; unfold sr, H in E2; rewrite E in E2; lia].
      + destruct (rs_old _ _ Hr Hk) as [(Hl & _ & Hr')|[_ ->]]; [|destruct p as [|[|p]]; discriminate]. rewrite (kmap_lt k Hl) in Hv'. exists p, la', r. auto.
    - apply stays in Hv. cbn [i_rule i_pos i_la] in Hv. apply aug_cases in Hr as [[Hl Hr]|[_ ->]]; [|destruct p as [|[|p]]; discriminate]. destruct (sim_nth _ _ Hr) as (A1 & _ & A2).
      destruct (Nat.eq_dec k n); [lia|]. exists p, la, r. auto.
  Qed.

  Section Run.
    Context {N T E : Type} (tix : T -> nat) (gens : list (reducer N T E)) (f : reducer N T E) (w : list T).
    Hypothesis Hlen : length gens = n.
    Hypothesis Hw : forall x, In x w -> tix x <> key.
    Lemma sim_run : (forall r, mach_ends tix rules st z gens w r <-> mach_ends tix H st ss (gens ++ [f]) w r) /\ (mach_forever tix rules st z gens w <-> mach_forever tix H st ss (gens ++ [f]) w).
    Proof.
      assert (HH : length H = S n) by apply sim_sr.
      assert (Q1 : forall i x, nth_error w i = Some x -> TSym (tix x) <> t0) by (intros i x Hx E0; injection E0 as E0; eapply Hw; eauto; eapply nth_error_In; eauto).
      assert (Q2 : forall m g, ok g -> ok (firstn m g)) by (intros m g Hg HI; apply Hg; rewrite <- (firstn_skipn m g); apply in_or_app; auto).
      assert (Q3 : forall g t, ok g -> t <> t0 -> ok (g ++ [TM t])) by (intros g t Hg Ht HI; apply in_app_or in HI as [HI|[HI|[]]]; [auto|congruence]).
      assert (Q4 : forall g, ok g -> ok (g ++ [TM TErr])) by (intros g Hg; apply Q3; [auto|discriminate]).
      assert (Q5 : forall g B, ok g -> ok (g ++ [NT B])) by (intros g B Hg HI; apply in_app_or in HI as [HI|[HI|[]]]; [auto|discriminate]).
      assert (R1 : forall g t, ok g -> t <> t0 -> (can_shift rules st z g t <-> can_shift H st ss g t)) by (intros g t Hg Ht; symmetry; apply sim_wants; auto).
      assert (R2 : forall g t, ok g -> t <> t0 -> (can_accept rules st z g t <-> can_accept H st ss g t)) by (intros g t Hg Ht; unfold can_accept; pose proof (sim_accepts g Hg); tauto).
      assert (R3 : forall g t k, ok g -> t <> t0 -> (can_reduce rules st z g t k <-> can_reduce H st ss g t k)).
      { intros g t k Hg Ht. unfold can_reduce. split; intros [Hk Hc].
        - split; [rewrite HH; unfold n; lia|]. apply sim_complete; auto.
        - assert (k <> n) by (intros ->; exact (sim_new g t Hg Hc)). assert (k < n) by (rewrite HH in Hk; lia). split; auto. apply sim_complete; auto. }
      assert (R4 : forall g k, ok g -> (wants_error (augment rules st z) (length rules) g k <-> wants_error (augment H st ss) (length H) g k)) by (intros g k Hg; symmetry; apply sim_error; auto).
      assert (R5 : forall k r, nth_error rules k = Some r -> nth_error H k = Some r /\ nth_error gens k = nth_error (gens ++ [f]) k).
      { intros k r Hk. assert (Hl : k < n) by (apply nth_error_Some; congruence). unfold H. split; [rewrite nth_error_app1; auto|]. symmetry. apply nth_error_app1. lia. }
      assert (R6 : forall g t k, ok g -> can_reduce rules st z g t k -> exists r, nth_error rules k = Some r).
      { intros g t k _ [Hk _]. destruct (nth_error rules k) as [r|] eqn:Er; eauto. apply nth_error_None in Er. lia. }
      assert (Q6 : TEoi <> t0) by discriminate. assert (Q7 : ok []) by (intros []).
      split.
      - intros r. apply (ag_ends tix rules H st z ss gens (gens ++ [f]) w ok (fun t => t <> t0)); auto.
      - apply (ag_forever tix rules H st z ss gens (gens ++ [f]) w ok (fun t => t <> t0)); auto.
    Qed.
  End Run.
End Grown.
