(** The line searches. *)
From Coq Require Import QArith Qcanon Lqa.
From Verif Require Import Base SD Sums Ham Asci AsciSort Mem MemProofs DenseSpec DenseProofs DiisSpec DiisProofs DavSpec McscfSpec RotProofs ExpandProofs DiisProofs2 Bfgs BfgsSpec BfgsProofs BfgsProofs2.
Local Open Scope nat_scope.

Lemma bind_inv {A B} (m : res A) (f : A -> res B) b : bind m f = Ok b -> exists a, m = Ok a /\ f a = Ok b.
Proof. destruct m as [a|e]; [intros H; exists a; split; [reflexivity|exact H]|discriminate]. Qed.
Ltac binv H a E := apply bind_inv in H; destruct H as (a & E & H).
Lemma moved_axpy x0 p t : moved x0 p t (v_axpy t p x0).
Proof. split; [apply v_axpy_length|]. intros i Hi. apply v_axpy_nth. exact Hi. Qed.
Lemma moved_unique x0 p t x : moved x0 p t x -> x = v_axpy t p x0.
Proof. intros (L & K). apply nth_ext with 0%Qc 0%Qc; [rewrite v_axpy_length; exact L|]. intros i Hi. rewrite K, v_axpy_nth by lia. reflexivity. Qed.
Lemma halves_small k : 20 <= k -> qlt (halves k) (Q2Qc (1 # 1000000)) = true.
Proof.
  intros H. apply qlt_true. replace k with (20 + (k - 20)) by lia. generalize (k - 20). clear H k. intros m.
  induction m as [|m IH]; [vm_compute; reflexivity|]. rewrite Nat.add_succ_r. cbn [halves].
  assert (G : (0 < halves (20 + m))%Qc). { clear IH. generalize (20 + m). intros j. induction j as [|j IHj]; [reflexivity|]. cbn [halves]. apply qmul_pos; [exact IHj|reflexivity]. }
  revert IH G. generalize (halves (20 + m)). intros h. unfold Qclt. cbn [this Qcmult Q2Qc]. rewrite !Qred_correct. intros. lra.
Qed.
Lemma halves_pos k : (0 < halves k)%Qc.
Proof. induction k as [|k IH]; [reflexivity|]. cbn [halves]. apply qmul_pos; [exact IH|reflexivity]. Qed.

Section LS.
  Variables (eval : list Qc -> res Qc) (grad : list Qc -> res (list Qc)).
  Lemma sufficient_decreased f0 d0 f t : sufficient f0 (- d0 * Q2Qc (1 # 2))%Qc f t = true <-> decreased f0 d0 t f.
  Proof. unfold sufficient, decreased. apply qlt_true. Qed.
  Lemma backtrack_inv x0 p f0 d0 : forall k j x fx s x' fx',
    backtrack eval k x0 p f0 (- d0 * Q2Qc (1 # 2))%Qc (halves j) x fx = Ok (s, x', fx') -> x = v_axpy (halves j) p x0 -> eval x = Ok fx ->
    (forall i, i < j -> exists fi, eval (v_axpy (halves i) p x0) = Ok fi /\ ~ decreased f0 d0 (halves i) fi) ->
    exists m, j <= m <= j + k /\ s = halves m /\ x' = v_axpy (halves m) p x0 /\ eval x' = Ok fx' /\ (m < j + k -> decreased f0 d0 (halves m) fx') /\
      forall i, i < m -> exists fi, eval (v_axpy (halves i) p x0) = Ok fi /\ ~ decreased f0 d0 (halves i) fi.
  Proof.
    induction k as [|k IH]; intros j x fx s x' fx' H X E Hi.
    - cbn in H. injection H as <- <- <-. exists j. split; [lia|]. repeat split; try assumption. lia.
    - cbn [backtrack] in H. destruct (sufficient f0 (- d0 * Q2Qc (1 # 2))%Qc fx (halves j)) eqn:T.
      + injection H as <- <- <-. exists j. split; [lia|]. repeat split; try assumption. intros _. apply sufficient_decreased. exact T.
      + cbv zeta in H. binv H t Et. destruct t as [x1 f1]. cbn [fst snd] in H. unfold trial in Et. cbv zeta in Et. binv Et f1' Ef. injection Et as <- <-.
        change (halves j * Q2Qc (1 # 2))%Qc with (halves (S j)) in *. apply (IH (S j)) in H; [|reflexivity|exact Ef|].
        * destruct H as (m & Hm & H). exists m. split; [lia|]. replace (j + S k) with (S j + k) by lia. exact H.
        * intros i Hij. destruct (Nat.eq_dec i j) as [->|ne]; [|apply Hi; lia]. exists fx. split; [rewrite <- X; exact E|]. intros D. apply sufficient_decreased in D. congruence.
  Qed.
  Lemma backtracking_spec x0 p step s x fx g : backtracking_line_search eval grad x0 p step = Ok (s, x, fx, g) ->
    exists f0 g0 k, (0 < step)%Qc /\ eval x0 = Ok f0 /\ grad x0 = Ok g0 /\ (v_dot p g0 <= 0)%Qc /\ k <= 19 /\ s = halves k /\ x = v_axpy s p x0 /\ eval x = Ok fx /\ grad x = Ok g /\
      (fx <= f0)%Qc /\ decreased f0 (v_dot p g0) s fx /\
      forall j, j < k -> exists fj, eval (v_axpy (halves j) p x0) = Ok fj /\ ~ decreased f0 (v_dot p g0) (halves j) fj.
  Proof.
    intros H. unfold backtracking_line_search in H. binv H f0 E0. binv H g0 G0. cbv zeta in H.
    destruct (qlt 0 (v_dot p g0)) eqn:D; [discriminate H|]. destruct (qlt 0 step) eqn:P; [|discriminate H]. cbn [negb] in H.
    binv H t Et. destruct t as [x1 f1]. unfold trial in Et. cbv zeta in Et. binv Et f1' Ef. injection Et as <- <-. cbn [fst snd] in H. binv H r Er. destruct r as [[s' x'] fx'].
    change 1%Qc with (halves 0) in Er, Ef. apply backtrack_inv in Er; [|reflexivity|exact Ef|lia].
    destruct Er as (m & Hm & -> & -> & Ex & Dm & Hlt).
    destruct (qlt 0 (fx' - f0)) eqn:F; [discriminate H|]. destruct (qlt (halves m) (Q2Qc (1 # 1000000))) eqn:S1; [discriminate H|]. cbn [orb] in H. binv H g' G. injection H as <- <- <- <-.
    assert (M : m <= 19) by (destruct (le_lt_dec m 19) as [L|L]; [exact L|rewrite halves_small in S1 by lia; discriminate S1]).
    exists f0, g0, m. repeat split; try assumption; try reflexivity.
    - apply qlt_true. exact P.
    - apply qlt_false. exact D.
    - apply qlt_false in F. clear - F. unfold Qcle in *. cbn [this Qcminus Qcplus Qcopp Q2Qc] in *. rewrite ?Qred_correct in *. lra.
    - apply Dm. lia.
  Qed.

  (** ** Nocedal and Wright *)
  Definition b_step (b : bound) : Qc := fst (fst b).
  Definition b_dg (b : bound) : Qc := snd b.
  Definition answer (x0 p : list Qc) (f0 armijo curv : Qc) (a : Qc * list Qc * Qc * list Qc) : Prop :=
    let '(t, x, f, g) := a in
    (0 < t)%Qc /\ x = v_axpy t p x0 /\ eval x = Ok f /\ grad x = Ok g /\ (f - f0 <= t * armijo)%Qc /\ (Ham.Qcabs (v_dot g p) <= curv)%Qc.
  Lemma q_double_lt t : (0 < t)%Qc -> (t < t * Q2Qc (2 # 1))%Qc.
  Proof. unfold Qclt. cbn [this Qcmult Q2Qc]. rewrite ?Qred_correct. intros. lra. Qed.
  Definition bounds_ok (lo hi : bound) : Prop := (0 <= b_step lo)%Qc /\ (0 <= b_step hi)%Qc /\ b_step lo <> b_step hi.
  Lemma bracket_inv x0 p f0 armijo curv : forall left step lo hi r,
    nw_bracket eval grad left x0 p f0 armijo curv step lo hi = Ok r -> (0 <= b_step lo)%Qc -> (b_step lo < step)%Qc ->
    (left = 0 -> exists h, hi = Some h /\ bounds_ok lo h) ->
    match r with
    | inl a => answer x0 p f0 armijo curv a
    | inr (lo', hi') => exists h, hi' = Some h /\ bounds_ok lo' h
    end.
  Proof.
    induction left as [|left IH]; intros step [[ls lf] ld] hi r H L0 Ls Hh; cbn [nw_bracket] in H; cbv zeta in H; binv H fx E; binv H g G.
    - injection H as <-. exact (Hh eq_refl).
    - unfold b_step in L0, Ls. cbn [fst snd] in L0, Ls. assert (S0 : (0 < step)%Qc) by (eapply Qcle_lt_trans; eassumption).
      destruct (qlt (step * armijo) (fx - f0) || qlt 0 ls && negb (qlt fx lf)) eqn:T1.
      { injection H as <-. eexists. split; [reflexivity|]. unfold bounds_ok, b_step. cbn [fst snd]. split; [exact L0|]. split; [apply Qclt_le_weak; exact S0|]. intros e. rewrite e in Ls. exact (Qclt_not_eq _ _ Ls eq_refl). }
      apply orb_false_iff in T1. destruct T1 as (T1 & _).
      destruct (qlt curv (Ham.Qcabs (v_dot g p))) eqn:T2.
      2:{ injection H as <-. cbn [negb]. unfold answer. repeat split; try assumption. - apply qlt_false. exact T1. - apply qlt_false. exact T2. }
      cbn [negb] in H.
      assert (BO : bounds_ok (step, fx, v_dot g p) (ls, lf, ld)).
      { unfold bounds_ok, b_step. cbn [fst snd]. split; [apply Qclt_le_weak; exact S0|]. split; [exact L0|]. intros e. rewrite e in Ls. exact (Qclt_not_eq _ _ Ls eq_refl). }
      destruct (qlt (v_dot g p) 0) eqn:T3; cbn [negb] in H.
      + apply IH in H; [exact H|unfold b_step; cbn [fst]; apply Qclt_le_weak; exact S0|unfold b_step; cbn [fst]; apply q_double_lt; exact S0|]. intros _. eexists. split; [reflexivity|exact BO].
      + injection H as <-. eexists. split; [reflexivity|exact BO].
  Qed.
  Lemma nw_step_between lo hi t : bounds_ok lo hi -> nw_step lo hi = Ok t ->
    (b_step lo < t /\ t < b_step hi)%Qc \/ (b_step hi < t /\ t < b_step lo)%Qc.
  Proof.
    destruct lo as [[l lf] ld], hi as [[h hf] hd]. unfold bounds_ok, b_step. cbn [fst snd]. intros (L0 & H0 & NE) H. unfold nw_step in H. cbv zeta in H.
    assert (M : ((l < l / Q2Qc (2 # 1) + h / Q2Qc (2 # 1) /\ l / Q2Qc (2 # 1) + h / Q2Qc (2 # 1) < h) \/ (h < l / Q2Qc (2 # 1) + h / Q2Qc (2 # 1) /\ l / Q2Qc (2 # 1) + h / Q2Qc (2 # 1) < l))%Qc).
    { destruct (Qc_dec l h) as [[X|X]|X]; [left|right|contradiction]; revert X; unfold Qclt, Qcdiv; cbn [this Qcmult Qcplus Qcinv Q2Qc]; rewrite ?Qred_correct; intros X; change (/ (2 # 1))%Q with (1 # 2)%Q; split; lra. }
    repeat match type of H with (if ?c then _ else _) = _ => destruct c eqn:? end; try discriminate H; injection H as <-; try exact M.
    all: repeat match goal with |- context [if ?c then _ else _] => destruct c eqn:? end; try exact M.
    all: repeat match goal with
      | X : (_ || _)%bool = false |- _ => apply orb_false_iff in X; destruct X
      | X : negb _ = false |- _ => apply negb_false_iff in X
      | X : qlt _ _ = true |- _ => apply qlt_true in X
      | X : qlt _ _ = false |- _ => apply qlt_false in X
      end; try (left; split; assumption); try (right; split; assumption).
    match goal with |- context [(l < ?t)%Qc] => set (u := t) in * end. clearbody u.
    destruct (qlt h l) eqn:A, (qlt l h) eqn:B; try (left; split; assumption); try (right; split; assumption).
    - apply qlt_true in A. apply qlt_true in B. exfalso. exact (Qclt_not_le _ _ A (Qclt_le_weak _ _ B)).
    - exfalso. apply qlt_false in A. apply qlt_false in B. apply NE. apply Qcle_antisym; assumption.
  Qed.
  Lemma between_pos a b t : (0 <= a)%Qc -> (0 <= b)%Qc -> (a < t /\ t < b)%Qc \/ (b < t /\ t < a)%Qc -> (0 < t)%Qc /\ a <> t /\ t <> b /\ a <> b.
  Proof. unfold Qcle, Qclt. intros A B [(X & Y)|(X & Y)]; (split; [cbn [this Q2Qc] in *; lra|]); repeat split; intros ->; cbn [this Q2Qc] in *; try lra. Qed.
  Lemma zoom_inv x0 p f0 armijo curv : forall left lo hi a, bounds_ok lo hi ->
    nw_zoom eval grad left x0 p f0 armijo curv lo hi = Ok a -> answer x0 p f0 armijo curv a.
  Proof.
    induction left as [|left IH]; intros lo hi a OK H; cbn [nw_zoom] in H; binv H t T; cbv zeta in H; binv H fx E; binv H g G; [discriminate H|].
    pose proof (nw_step_between lo hi t OK T) as BW. destruct OK as (L0 & H0 & _). pose proof (between_pos _ _ _ L0 H0 BW) as (T0 & N1 & N2 & N3).
    destruct lo as [[l lf] ld], hi as [[h hf] hd]. unfold b_step in *. cbn [fst snd] in *.
    destruct (qlt (t * armijo) (fx - f0) || negb (qlt fx lf)) eqn:T1.
    - destruct (Qc_eq_dec t h); [contradiction|]. apply IH in H; [exact H|]. unfold bounds_ok, b_step. cbn [fst snd]. repeat split; try assumption. apply Qclt_le_weak. exact T0.
    - apply orb_false_iff in T1. destruct T1 as (T1 & _). destruct (qlt curv (Ham.Qcabs (v_dot g p))) eqn:T2; cbn [negb] in H.
      2:{ injection H as <-. unfold answer. repeat split; try assumption; apply qlt_false; assumption. }
      destruct (Qc_eq_dec t l) as [e|_]; [exfalso; apply N1; symmetry; exact e|]. apply IH in H; [exact H|].
      destruct (qlt (v_dot g p * (h - l)) 0); unfold bounds_ok, b_step; cbn [fst snd]; repeat split; try assumption; try (apply Qclt_le_weak; exact T0). intros e; apply N1; symmetry; exact e.
  Qed.
  Lemma nw_spec x0 p step f0 g0 t x f g : nocedal_wright_line_search eval grad x0 p step f0 g0 = Ok (t, x, f, g) ->
    (0 < step)%Qc /\ (v_dot p g0 <= 0)%Qc /\ answer x0 p f0 (Q2Qc (1 # 10000) * v_dot p g0)%Qc (- Q2Qc (9 # 10) * v_dot p g0)%Qc (t, x, f, g).
  Proof.
    intros H. unfold nocedal_wright_line_search in H. cbv zeta in H. destruct (qlt 0 (v_dot p g0)) eqn:D; [discriminate H|]. destruct (qlt 0 step) eqn:P; [|discriminate H]. cbn [negb] in H.
    apply qlt_true in P. apply qlt_false in D. split; [exact P|]. split; [exact D|]. binv H r R. apply bracket_inv in R; [|apply Qcle_refl|exact P|discriminate].
    destruct r as [a|(lo & hi)]; [injection H as ->; exact R|]. destruct R as (h & -> & OK). apply zoom_inv in H; [exact H|exact OK].
  Qed.

  (** total: if the objective can be computed and the direction descends *)
  Variable n : nat.
  Hypothesis C : computable n eval grad.
  Definition fine {A} (r : res A) : Prop := (exists a, r = Ok a) \/ r = Err Throw.
  Lemma abs_gt_nonzero curv d : (0 <= curv)%Qc -> qlt curv (Ham.Qcabs d) = true -> d <> 0%Qc.
  Proof. intros H T -> . apply qlt_true in T. apply (Qclt_not_le _ _ T). exact H. Qed.
  Lemma nw_step_total lo hi : b_step lo <> b_step hi -> b_dg lo <> 0%Qc -> exists t, nw_step lo hi = Ok t.
  Proof.
    destruct lo as [[l lf] ld], hi as [[h hf] hd]. unfold b_step, b_dg. cbn [fst snd]. intros NE ND. unfold nw_step. cbv zeta.
    destruct (Qc_eq_dec (hf - lf - (h - l) * ld) 0) as [e|_]; [|eexists; reflexivity]. destruct (Qc_eq_dec ((hf - lf) * l - (h * h - l * l) * ld / Q2Qc (2 # 1)) 0) as [e2|_]; [|eexists; reflexivity]. exfalso.
    assert (Z : ((h - l) * (h - l) * ld = 0)%Qc).
    { assert (F : (hf - lf = (h - l) * ld)%Qc) by (replace (hf - lf)%Qc with (hf - lf - (h - l) * ld + (h - l) * ld)%Qc by ring; rewrite e; ring).
      rewrite F in e2. change (Q2Qc (2 # 1)) with (1 + 1)%Qc in e2. assert (T2 : ((1 + 1) <> 0)%Qc) by (intros X; apply (f_equal this) in X; discriminate X).
      transitivity ((- (1 + 1)) * ((h - l) * ld * l - (h * h - l * l) * ld / (1 + 1)))%Qc; [field; exact T2|rewrite e2; ring]. }
    apply Qcmult_integral in Z. destruct Z as [Z|Z]; [|contradiction]. apply NE. assert (Y : (h - l = 0)%Qc) by (apply Qcmult_integral in Z; tauto). replace h with (h - l + l)%Qc by ring. rewrite Y. ring.
  Qed.
  Lemma zoom_total x0 p f0 armijo curv : length x0 = n -> (0 <= curv)%Qc -> forall left lo hi, bounds_ok lo hi -> b_dg lo <> 0%Qc -> fine (nw_zoom eval grad left x0 p f0 armijo curv lo hi).
  Proof.
    intros Lx Cv. induction left as [|left IH]; intros lo hi OK ND; cbn [nw_zoom]; cbv zeta.
    all: pose proof OK as (L0 & H0 & NE); destruct (nw_step_total lo hi NE ND) as (t & T); rewrite T; cbn [bind].
    all: destruct (C (v_axpy t p x0)) as ((fx & E) & g & G & Lg); [rewrite v_axpy_length; exact Lx|]; rewrite E; cbn [bind]; rewrite G; cbn [bind].
    - right. reflexivity.
    - pose proof (nw_step_between lo hi t OK T) as BW. pose proof (between_pos _ _ _ L0 H0 BW) as (T0 & N1 & N2 & N3). apply Qclt_le_weak in T0.
      destruct lo as [[l lf] ld], hi as [[h hf] hd]. unfold b_step, b_dg in *. cbn [fst snd] in *.
      destruct (qlt (t * armijo) (fx - f0) || negb (qlt fx lf)).
      + destruct (Qc_eq_dec t h); [right; reflexivity|]. apply IH; unfold bounds_ok, b_step, b_dg; cbn [fst snd]; repeat split; assumption.
      + destruct (qlt curv (Ham.Qcabs (v_dot g p))) eqn:T2; cbn [negb]; [|left; eexists; reflexivity].
        destruct (Qc_eq_dec t l) as [e|_]; [right; reflexivity|]. apply IH; [|exact (abs_gt_nonzero _ _ Cv T2)].
        destruct (qlt (v_dot g p * (h - l)) 0); unfold bounds_ok, b_step; cbn [fst snd]; repeat split; try assumption. intros e; apply N1; symmetry; exact e.
  Qed.
  Lemma bracket_total x0 p f0 armijo curv : length x0 = n -> (0 <= curv)%Qc -> forall left step lo hi, (b_dg lo <> 0)%Qc ->
    exists r, nw_bracket eval grad left x0 p f0 armijo curv step lo hi = Ok r /\ match r with inl _ => True | inr (lo', _) => b_dg lo' <> 0%Qc end.
  Proof.
    intros Lx Cv. induction left as [|left IH]; intros step lo hi ND; cbn [nw_bracket]; cbv zeta.
    all: destruct (C (v_axpy step p x0)) as ((fx & E) & g & G & Lg); [rewrite v_axpy_length; exact Lx|]; rewrite E; cbn [bind]; rewrite G; cbn [bind].
    - eexists. split; [reflexivity|exact ND].
    - destruct lo as [[l lf] ld]. destruct (qlt (step * armijo) (fx - f0) || qlt 0 l && negb (qlt fx lf)); [eexists; split; [reflexivity|exact ND]|].
      destruct (qlt curv (Ham.Qcabs (v_dot g p))) eqn:T2; cbn [negb]; [|eexists; split; [reflexivity|exact I]]. pose proof (abs_gt_nonzero _ _ Cv T2) as ND'.
      destruct (qlt (v_dot g p) 0); cbn [negb]; [apply IH; exact ND'|eexists; split; [reflexivity|exact ND']].
  Qed.
  Lemma nw_total x0 p step f0 g0 : length x0 = n -> (0 < step)%Qc -> (v_dot p g0 < 0)%Qc -> fine (nocedal_wright_line_search eval grad x0 p step f0 g0).
  Proof.
    intros Lx P D. unfold nocedal_wright_line_search. cbv zeta. assert (D' : qlt 0 (v_dot p g0) = false) by (apply qlt_false, Qclt_le_weak; exact D). rewrite D'. assert (P' : qlt 0 step = true) by (apply qlt_true; exact P). rewrite P'. cbn [negb].
    assert (Cv : (0 <= - Q2Qc (9 # 10) * v_dot p g0)%Qc) by (revert D; unfold Qclt, Qcle; cbn [this Qcmult Qcopp Q2Qc]; rewrite ?Qred_correct; intros; lra).
    destruct (bracket_total x0 p f0 (Q2Qc (1 # 10000) * v_dot p g0)%Qc (- Q2Qc (9 # 10) * v_dot p g0)%Qc Lx Cv 100 step (0%Qc, f0, v_dot p g0) None) as (r & R & HR).
    { unfold b_dg. cbn [snd]. intros e. rewrite e in D. exact (Qclt_not_eq _ _ D eq_refl). }
    rewrite R. cbn [bind]. apply bracket_inv in R; [|apply Qcle_refl|exact P|discriminate]. destruct r as [a|(lo & hi)]; [left; eexists; reflexivity|]. destruct R as (h & -> & OK). apply zoom_total; assumption.
  Qed.
  Lemma backtrack_ok x0 p f0 ta : length x0 = n -> forall k t x fx, length x = n -> exists r, backtrack eval k x0 p f0 ta t x fx = Ok r /\ length (snd (fst r)) = n.
  Proof.
    intros Lx. induction k as [|k IH]; intros t x fx L; cbn [backtrack]; [eexists; split; [reflexivity|exact L]|]. destruct (sufficient f0 ta fx t); [eexists; split; [reflexivity|exact L]|].
    cbv zeta. unfold trial. cbv zeta. destruct (C (v_axpy (t * Q2Qc (1 # 2)) p x0)) as ((f & E) & _); [rewrite v_axpy_length; exact Lx|]. rewrite E. cbn [bind fst snd]. apply IH. rewrite v_axpy_length. exact Lx.
  Qed.
  Lemma backtracking_total x0 p step : length x0 = n -> fine (backtracking_line_search eval grad x0 p step).
  Proof.
    intros Lx. unfold backtracking_line_search. destruct (C x0 Lx) as ((f0 & E) & g0 & G & _). rewrite E. cbn [bind]. rewrite G. cbn [bind]. cbv zeta.
    destruct (qlt 0 (v_dot p g0)); [right; reflexivity|]. destruct (qlt 0 step); [|right; reflexivity]. cbn [negb]. unfold trial. cbv zeta.
    destruct (C (v_axpy 1 p x0)) as ((f1 & E1) & _); [rewrite v_axpy_length; exact Lx|]. rewrite E1. cbn [bind fst snd].
    destruct (backtrack_ok x0 p f0 (- v_dot p g0 * Q2Qc (1 # 2))%Qc Lx 100 1%Qc (v_axpy 1 p x0) f1) as ([[t x] fx] & R & L); [rewrite v_axpy_length; exact Lx|]. rewrite R. cbn [bind]. cbn [fst snd] in L.
    destruct (qlt 0 (fx - f0) || qlt t (Q2Qc (1 # 1000000))); [right; reflexivity|]. destruct (C x L) as (_ & g & Gx & _). rewrite Gx. left. eexists. reflexivity.
  Qed.
End LS.
