(** * The tokenizer of the calculator *)
From Coq Require Import List NArith Lia String.
From Verif Require Import Lib Hir NfaPath NfaSem NfaModel NfaProofs NfaExact TokNfa DfaModel DfaEdges DfaProofs DfaTop MinModel MinProofs MinTop TokModel TokSpec TokProofs TokTop TokMore TokExamples PropTok PropBuild.
From Verif Require Import ExModel ExSpec.
Import ListNotations.
Local Open Scope list_scope.
Local Notation length := List.length.

(** ** The languages of the patterns *)
Lemma in_one c lo hi : in_class c [(lo, hi)] <-> (lo <= c <= hi)%N.
Proof.
  unfold in_class. split.
  - intros (a & b & [H|[]] & H1 & H2). injection H as <- <-. lia.
  - intros H. exists lo, hi. simpl. split; auto; lia.
Qed.
Lemma in_two c lo hi lo' hi' : in_class c [(lo, hi); (lo', hi')] <-> (lo <= c <= hi \/ lo' <= c <= hi')%N.
Proof.
  unfold in_class. split.
  - intros (a & b & [H|[H|[]]] & H1 & H2); injection H as <- <-; lia.
  - intros [H|H]; [exists lo, hi|exists lo', hi']; simpl; split; auto; lia.
Qed.
Lemma digit_pow n : forall w, l_pow (matches h_digit) n w <-> length w = n /\ digits w.
Proof.
  induction n as [|n IH]; intros w; simpl.
  - unfold l_eps. split; [intros ->; split; [auto|constructor]|intros [H _]; destruct w; [auto|discriminate]].
  - split.
    + intros (u & v & -> & (c & -> & Hc) & Hv). apply IH in Hv as [H1 H2]. apply in_one in Hc. simpl. split; [congruence|]. constructor; auto.
    + intros [H1 H2]. destruct w as [|c w]; [discriminate|]. inversion H2; subst. exists [c], w. split; auto. split; [exists c; split; auto; apply in_one; auto|]. apply IH. simpl in H1. split; auto; lia.
Qed.
Lemma digits_matches w : matches h_digits w <-> w <> [] /\ digits w.
Proof.
  simpl. split.
  - intros (n & Hn & H). apply digit_pow in H as [H1 H2]. split; auto. intros ->. simpl in H1. lia.
  - intros [H1 H2]. exists (length w). split; [destruct w; [congruence|simpl; lia]|]. apply digit_pow. auto.
Qed.
Lemma digits0_matches w : matches (HRep RZeroOrMore true h_digit) w <-> digits w.
Proof.
  simpl. split.
  - intros (n & H). apply digit_pow in H as [H1 H2]. auto.
  - intros H. exists (length w). apply digit_pow. auto.
Qed.

Definition h_mantissa : hir := HGroup (HAlt [h_digits;
                HConcat [h_digits; HLitU 46%N; HRep RZeroOrMore true h_digit];
                HConcat [HRep RZeroOrMore true h_digit; HLitU 46%N; h_digits]]).
Definition h_exp : hir := HGroup (HConcat [HClassU [(69, 69); (101, 101)]%N; HRep RZeroOrOne true (HClassU [(43, 43); (45, 45)]%N); h_digits]).
Lemma cat3 A B C w : matches (HConcat [A; B; C]) w <-> exists a b c, w = a ++ b ++ c /\ matches A a /\ matches B b /\ matches C c.
Proof.
  cbn [matches]. split.
  - intros (a & x & -> & Ha & b & y & -> & Hb & c & z & -> & Hc & Hz). unfold l_eps in Hz. subst z. rewrite app_nil_r. exists a, b, c. auto.
  - intros (a & b & c & -> & Ha & Hb & Hc). exists a, (b ++ c). split; auto. split; auto. exists b, c. split; auto. split; auto. exists c, []. rewrite app_nil_r. repeat split; auto.
Qed.
Lemma mantissa_matches w : matches h_mantissa w <-> mantissa w.
Proof.
  unfold h_mantissa, mantissa. transitivity (matches h_digits w \/ matches (HConcat [h_digits; HLitU 46%N; HRep RZeroOrMore true h_digit]) w \/
    matches (HConcat [HRep RZeroOrMore true h_digit; HLitU 46%N; h_digits]) w); [cbn [matches]; unfold l_or, l_none; tauto|].
  rewrite !cat3, digits_matches. split.
  - intros [H|[(a & b & c & -> & Ha & Hb & Hc)|(a & b & c & -> & Ha & Hb & Hc)]]; [auto| |]; right; exists a, c; simpl in Hb; subst b; (split; [auto|]).
    + apply digits_matches in Ha as [Ha Ha']. apply digits0_matches in Hc. auto.
    + apply digits_matches in Hc as [Hc Hc']. apply digits0_matches in Ha. auto.
  - intros [H|(a & b & -> & Ha & Hb & Hn)]; [auto|]. right. destruct Hn as [Hn|Hn].
    + left. exists a, [46%N], b. split; auto. split; [apply digits_matches; auto|]. split; [reflexivity|]. apply digits0_matches. auto.
    + right. exists a, [46%N], b. split; auto. split; [apply digits0_matches; auto|]. split; [reflexivity|]. apply digits_matches. auto.
Qed.
Lemma exp_matches w : matches h_exp w <-> exponent w.
Proof.
  unfold h_exp, exponent. change (matches (HGroup ?h)) with (matches h). rewrite cat3. split.
  - intros (a & s & b & -> & (e & -> & He) & Hs & Hb). exists e, s, b. split; auto. apply in_two in He. apply digits_matches in Hb.
    assert (Hs' : s = [] \/ exists c, s = [c] /\ in_class c [(43, 43); (45, 45)]%N) by (destruct Hs as [Hs|Hs]; auto).
    split; [destruct He; [left|right]; lia|]. split; [|tauto]. destruct Hs' as [->|(c & -> & Hc)]; auto. apply in_two in Hc.
    destruct Hc; [right; left|right; right]; f_equal; lia.
  - intros (e & s & b & -> & He & Hs & Hb). exists [e], s, b. split; auto. split; [exists e; split; auto; apply in_two; destruct He; subst; lia|]. split; [|apply digits_matches; tauto].
    destruct Hs as [Hs|[Hs|Hs]]; subst s; [left; reflexivity|right|right]; eexists; (split; [reflexivity|apply in_two; lia]).
Qed.
Lemma mantissa_more m x : mantissa m -> digits x -> mantissa (m ++ x).
Proof.
  intros [[H1 H2]|(a & b & -> & Ha & Hb & Hn)] Hx.
  - left. split; [destruct m; [congruence|discriminate]|]. apply Forall_app. auto.
  - right. exists a, (b ++ x). rewrite <- !app_assoc. split; auto. split; auto. split; [apply Forall_app; auto|]. destruct Hn as [Hn|Hn]; auto. right. destruct b; [congruence|discriminate].
Qed.

(** a checker for well-formed expressions *)
Fixpoint sorted_b (rs : list (N * N)) : bool :=
  match rs with
  | [] => true
  | (a, b) :: rs' => (a <=? b)%N && (b <=? max_char)%N && forallb (fun r => (b <? fst r)%N) rs' && sorted_b rs'
  end.
Lemma sorted_b_ok rs : sorted_b rs = true -> wf_class rs.
Proof.
  induction rs as [|[a b] rs IH]; simpl; intros H; [split; constructor|]. rewrite !Bool.andb_true_iff in H. destruct H as [[[H1 H2] H3] H4]. destruct (IH H4) as [H5 H6].
  apply N.leb_le in H1, H2. split; constructor; auto. rewrite forallb_forall in H3. apply Forall_forall. intros r Hr. apply N.ltb_lt, (H3 r Hr).
Qed.
Fixpoint wf_b (h : hir) : bool :=
  match h with
  | HEmpty | HLitB _ | HClassB _ | HAnchor | HWordB => true
  | HLitU c => (c <=? max_char)%N
  | HClassU rs => sorted_b rs
  | HRep k _ h => match k with RBounded n m => Nat.leb n m | _ => true end && wf_b h
  | HGroup h => wf_b h
  | HConcat hs => match hs with [] => false | _ => true end && (fix go l := match l with [] => true | x :: l' => wf_b x && go l' end) hs
  | HAlt hs => (fix go l := match l with [] => true | x :: l' => wf_b x && go l' end) hs
  end.
Lemma wf_b_ok h : wf_b h = true -> wf_hir h.
Proof.
  induction h as [|c|b|rs|rs| | |kd g k IH|k IH|hs IH|hs IH] using hir_ind'; simpl; auto.
  - intros H. apply N.leb_le; auto.
  - apply sorted_b_ok.
  - intros H. apply Bool.andb_true_iff in H as [H1 H2]. split; [|auto]. destruct kd; simpl; auto. apply Nat.leb_le. exact H1.
  - intros H. apply Bool.andb_true_iff in H as [H1 H2]. split; [intros ->; discriminate H1|]. clear H1. induction IH as [|x l Hx Hl IHl]; auto.
    apply Bool.andb_true_iff in H2 as [H1 H2]. split; [apply Hx; exact H1|exact (IHl H2)].
  - induction IH as [|x l Hx Hl IHl]; auto. intros H. apply Bool.andb_true_iff in H as [H1 H2]. split; [apply Hx; exact H1|exact (IHl H2)].
Qed.
Ltac wfh := apply wf_b_ok; vm_compute; reflexivity.
Lemma hirs_wf : Forall wf_hir calc_hirs.
Proof. unfold calc_hirs. repeat apply Forall_cons; try apply Forall_nil; wfh. Qed.
Lemma hirs_sup : Forall supported calc_hirs.
Proof. unfold calc_hirs. repeat constructor; apply first_err_none; reflexivity. Qed.
Lemma mantissa_sem w : sem h_mantissa B E w <-> mantissa w.
Proof. rewrite <- mantissa_matches. apply exact_sem; [wfh|apply first_err_none; reflexivity|reflexivity]. Qed.
Lemma exp_sem w : sem h_exp B E w <-> exponent w.
Proof. rewrite <- exp_matches. apply exact_sem; [wfh|apply first_err_none; reflexivity|reflexivity]. Qed.

Lemma number_sem w : sem h_number B E w <-> number_text w.
Proof.
  split.
  - intros H. assert (H' : exists m x, w = m ++ x /\ sem h_mantissa B E m /\ m_add (sem h_exp) B E B E x) by exact H. clear H.
    destruct H' as (m & x & -> & Hm & Hx). apply mantissa_sem in Hm.
    apply m_add_BE_noeb in Hx; [|intros u []]. destruct Hx as [Hx|(u & v & -> & Hu & Hv)].
    + apply exp_sem in Hx. exists m, x. auto.
    + unfold number_text. assert (Eu : u = []) by exact Hu. subst u. simpl.
      assert (Hd : digits v).
      { assert (Hv' : m_add (sem h_digit) E B E E v) by exact Hv. apply (m_add_EB_E (sem h_digit) (matches h_digit)) in Hv'; [|auto].
        destruct Hv' as [Hq|(a & q & z & -> & Ha & [n Hq] & Hz)].
        - assert (Ev : v = []) by exact Hq. subst v. constructor.
        - assert (Ea : a = []) by exact Ha. subst a. apply digit_pow in Hq as [_ Hq]. apply Forall_app. split; [constructor|]. apply Forall_app. split; auto.
          destruct Hz as (c & -> & Hc). apply in_one in Hc. repeat constructor; apply Hc. }
      exists (m ++ v), []. rewrite app_nil_r. split; auto. split; auto. apply mantissa_more; auto.
  - intros (m & x & -> & Hm & Hx). exists m, x. split; auto. split; [apply mantissa_sem; auto|].
    apply (rep_sub RZeroOrOne (matches h_exp) (sem h_exp)); [exact I|apply sem_ok; [wfh|apply first_err_none; reflexivity]| |].
    + intros w Hw. apply exp_sem, exp_matches. auto.
    + destruct Hx as [->|Hx]; [left; reflexivity|right; apply exp_matches; auto].
Qed.
Lemma lang_ok p w : p < 9 -> (pat_lang calc_hirs p w <-> lexeme p w).
Proof.
  intros Hp. assert (Hlit : forall h c, nth_error calc_hirs p = Some h -> h = HLitU c -> (pat_lang calc_hirs p w <-> w = [c])).
  { intros h c Hh ->. unfold pat_lang. rewrite Hh. split; [intros (h & E0 & H); injection E0 as <-; exact H|intros H; exists (HLitU c); auto]. }
  destruct p as [|[|[|[|[|[|[|[|[|p]]]]]]]]]; [| | | | | | | | |lia]; cbn [lexeme]; try (eapply Hlit; reflexivity).
  - unfold pat_lang. split; [intros (h & E0 & H); injection E0 as <-; apply number_sem; auto|intros H; exists h_number; split; auto; apply number_sem; auto].
  - unfold pat_lang. split.
    + intros (h & E0 & H). injection E0 as <-. destruct H as (a & b & -> & Ha & c & d & -> & Hc & e & f & -> & He & Hf).
      simpl in Ha, Hc, He, Hf. subst. reflexivity.
    + intros ->. eexists. split; [reflexivity|]. exists [115%N], [113; 114; 116]%N. split; auto. split; [reflexivity|]. exists [113%N], [114; 116]%N. split; auto. split; [reflexivity|].
      exists [114%N], [116%N]. repeat split.
  - unfold pat_lang. split.
    + intros (h & E0 & H). injection E0 as <-. destruct H as [(c & -> & Hc)|[H|[]]]; [|simpl in H; subst w; exists 10%N; split; auto; vm_compute; discriminate].
      exists c. split; auto. apply in_two in Hc. unfold max_char in *. lia.
    + intros (c & -> & Hc). eexists. split; [reflexivity|]. destruct (N.eq_dec c 10) as [->|Hn]; [right; left; reflexivity|left]. exists c. split; auto. apply in_two. unfold max_char in *. lia.
Qed.
