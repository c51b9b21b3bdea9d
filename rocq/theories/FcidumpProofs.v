(** Reading FCIDUMP files (C24). *)
From Coq Require Import Ascii String QArith Qcanon ZArith NArith Bool Lia.
From Verif Require Import Base Ham Asci Mem MemProofs Text TextProofs IO IOSpec.
Local Open Scope nat_scope.

Lemma index_stoi t n : is_index t n -> stoi t = Ok (Z.of_nat n).
Proof.
  intros (E & D & V & L). unfold stoi, sto. destruct t as [|c t]; [congruence|].
  assert (Dc : is_digit c = true) by (apply D; left; auto).
  rewrite drop_while_none by (apply digit_not_space, Dc).
  replace (take_sign (c :: t)) with (false, c :: t) by (cbn [take_sign]; rewrite !digit_neq; auto).
  assert (F : forallb is_digit (c :: t) = true) by (apply forallb_forall; auto).
  destruct (take_while_all is_digit (c :: t) [] F I) as [X _]. rewrite app_nil_r in X. rewrite X, V, nat_N_Z.
  change (Z.of_N (32 - 1)) with 31%Z. change (2 ^ 31)%N with (Z.to_N (2 ^ 31)) in L.
  replace ((- 2 ^ 31 <=? Z.of_nat n) && (Z.of_nat n <? 2 ^ 31))%Z with true; auto.
  symmetry. apply andb_true_intro. split; [apply Z.leb_le|apply Z.ltb_lt]; lia.
Qed.
Lemma index_not_float t n : is_index t n -> is_float t = false.
Proof.
  intros (E & D & _). unfold is_float. destruct (existsb _ t) eqn:X; auto. apply existsb_exists in X.
  destruct X as (c & Hc & X). specialize (D c Hc). rewrite digit_not_alpha in X by auto. cbn [orb] in X.
  apply Ascii.eqb_eq in X. subst. discriminate.
Qed.
Lemma data_line_ok rnd l e : data_line rnd l e -> fcidump_line rnd (split_spaces l) = Ok e /\ List.length (split_spaces l) = 5.
Proof.
  destruct e as [[[[p q] r] s] v]. intros (a & b & c & d & x & F & A & B & C & D & (ch & Hc & X) & V).
  change (split_spaces l) with (fields l).
  assert (Fx : is_float x = true).
  { unfold is_float. apply existsb_exists. exists ch. split; auto. destruct X as [-> | ->]; auto. }
  assert (P : forall z, Z.ltb (Z.of_nat z) 0 = false) by (intros z; apply Z.ltb_ge; lia).
  destruct F as [-> | ->]; (split; [|reflexivity]); unfold fcidump_line; rewrite Fx.
  - rewrite (index_not_float _ _ A). cbn [andb].
    rewrite (index_stoi _ _ A), (index_stoi _ _ B), (index_stoi _ _ C), (index_stoi _ _ D), V. cbn [bind].
    rewrite !P, !Nat2Z.id. reflexivity.
  - rewrite (index_not_float _ _ D). cbn [andb].
    rewrite (index_stoi _ _ A), (index_stoi _ _ B), (index_stoi _ _ C), (index_stoi _ _ D), V. cbn [bind].
    rewrite !P, !Nat2Z.id. reflexivity.
Qed.
Lemma for_lines_ok {S} rnd file es (f : S -> integral -> res S) st :
  data_lines rnd (lines file) es -> for_lines rnd file f st = foldM es f st.
Proof.
  unfold for_lines. intros H. revert st. induction H as [|l ls es L H IH|l ls e es D H IH]; intros st; cbn [foldM]; auto.
  - change (split_spaces l) with (fields l). destruct (Nat.eqb_spec (List.length (fields l)) 5); [congruence|]. cbn [negb bind]. apply IH.
  - apply data_line_ok in D. destruct D as [D ->]. cbn [Nat.eqb negb]. rewrite D. cbn [bind].
    destruct (f st e); cbn [bind]; auto.
Qed.

Lemma norb_ok rnd file es : data_lines rnd (lines file) es -> read_fcidump_norb rnd file = Ok (max_index es).
Proof.
  intros H. unfold read_fcidump_norb. rewrite (for_lines_ok _ _ es) by auto.
  enough (G : forall a, foldM es (fun max_idx (e : integral) => let '(p, q, r, s, _) := e in
     Ok (Nat.max max_idx (Nat.max p (Nat.max q (Nat.max r s))))) a = Ok (Nat.max a (max_index es))).
  { rewrite G. f_equal. }
  clear H. induction es as [|[[[[p q] r] s] v] es IH]; intros a; cbn [foldM bind].
  - f_equal. cbn. lia.
  - rewrite IH. f_equal. unfold max_index. cbn [flat_map indices app fold_right]. lia.
Qed.
Lemma core_ok rnd file es : data_lines rnd (lines file) es -> read_fcidump_core rnd file = Ok (first_core es).
Proof.
  unfold read_fcidump_core. induction 1 as [|l ls es L H IH|l ls e es D H IH]; cbn [core_loop first_core]; auto.
  - change (split_spaces l) with (fields l). destruct (Nat.eqb_spec (List.length (fields l)) 5); [congruence|]. apply IH.
  - apply data_line_ok in D. destruct D as [D ->]. cbn [Nat.eqb negb]. rewrite D. cbn [bind].
    destruct e as [[[[p q] r] s] v]. cbn [indices forallb value snd]. unfold line_classification.
    destruct p, q, r, s; cbn [Nat.eqb negb orb andb]; auto.
Qed.

Lemma idx_inj n a x a' x' : a < n -> a' < n -> a + n * x = a' + n * x' -> a = a' /\ x = x'.
Proof.
  intros H H' E. assert (x = x').
  { replace x with ((a + n * x) / n). 2:{ rewrite Nat.mul_comm, Nat.div_add by lia. rewrite Nat.div_small; auto. }
    rewrite E. rewrite Nat.mul_comm, Nat.div_add by lia. rewrite Nat.div_small; auto. }
  subst. lia.
Qed.
Lemma idx_lt n a x m : a < n -> x < m -> a + n * x < n * m.
Proof. intros. nia. Qed.

(* storing one value at several places *)
Lemma put_same {I} (f : list Qc -> I -> res (list Qc)) (a : I -> nat) v L l : forall (V : list Qc), List.length V = L ->
  (forall i, In i l -> a i < L) ->
  (forall i V, In i l -> List.length V = L -> f V i = put V (a i) v) ->
  exists V', foldM l f V = Ok V' /\ List.length V' = L /\
    forall j d, nth j V' d = if existsb (fun i => a i =? j) l then v else nth j V d.
Proof.
  induction l as [|i l IH]; intros V HL H F; cbn [foldM existsb].
  - eauto.
  - rewrite F by (auto; left; auto). assert (a i < L) by (apply H; left; auto). rewrite put_ok by lia. cbn [bind].
    destruct (IH (upd V (a i) v)) as (V' & E & Lv & N).
    { rewrite upd_length; auto. }
    { intros k Hk. apply H. right; auto. }
    { intros k V0 Hk. apply F. right; auto. }
    exists V'. split; auto. split; auto. intros j d. rewrite N, upd_nth by lia.
    rewrite (Nat.eqb_sym j). destruct (a i =? j); cbn [orb]; destruct (existsb _ l); auto.
Qed.

Section Read.
  Variable n : nat.
  Definition step1 (T : list Qc) (e : integral) : res (list Qc) :=
    let '(p, q, r, s, integral) := e in
      match line_classification p q r s with
      | OneBody =>
        do p <- pred_ p;
        do q <- pred_ q;
        do a <- span2 n p q;
        do T <- put T a integral;
        do b <- span2 n q p;
        put T b integral
      | _ => Ok T
      end.
  Lemma step1_ok T e : proper e -> (forall i, In i (indices e) -> i <= n) -> List.length T = n * n ->
    exists T', step1 T e = Ok T' /\ List.length T' = n * n /\
    forall p q d, p < n -> q < n -> nth (pos2 n p q) T' d = if one_at e p q then value e else nth (pos2 n p q) T d.
  Proof.
    destruct e as [[[[a b] c] d0] v]. intros P B L. cbn [indices] in B. cbn [step1 one_at value snd].
    assert (a <= n /\ b <= n) as [Ba Bb] by (split; apply B; cbn; auto).
    destruct P as [P|[P|P]].
    - unfold core_data in P. cbn [indices] in P. injection P as -> -> -> ->.
      cbn [line_classification Nat.eqb negb orb]. exists T. split; auto.
    - cbn in P. destruct P as (Pa & Pb & -> & ->). destruct a as [|a], b as [|b]; try congruence.
      cbn [line_classification Nat.eqb negb orb andb pred_ bind]. unfold span2.
      destruct (Nat.ltb_spec a n); [|lia]. destruct (Nat.ltb_spec b n); [|lia]. cbn [andb bind].
      assert (A1 : a + b * n < n * n) by nia. assert (A2 : b + a * n < n * n) by nia.
      rewrite put_ok by lia. cbn [bind]. rewrite put_ok by (rewrite upd_length; lia). eexists. split; [reflexivity|].
      rewrite !upd_length. split; auto. intros p q d Hp Hq. rewrite !upd_nth by (rewrite ?upd_length; lia).
      unfold pos2, same_pair.
      assert (E1 : (p + n * q =? b + a * n) = ((S a =? S q) && (S b =? S p))).
      { destruct (Nat.eqb_spec (p + n * q) (b + a * n)) as [E|E].
        - rewrite (Nat.mul_comm a n) in E. apply idx_inj in E; auto. destruct E as [-> ->]. rewrite !Nat.eqb_refl. auto.
        - symmetry. apply andb_false_iff. rewrite !Nat.eqb_neq. destruct (Nat.eq_dec a q); [|lia].
          destruct (Nat.eq_dec b p); [|lia]. subst. rewrite (Nat.mul_comm q n) in E. lia. }
      assert (E2 : (p + n * q =? a + b * n) = ((S a =? S p) && (S b =? S q))).
      { destruct (Nat.eqb_spec (p + n * q) (a + b * n)) as [E|E].
        - rewrite (Nat.mul_comm b n) in E. apply idx_inj in E; auto. destruct E as [-> ->]. rewrite !Nat.eqb_refl. auto.
        - symmetry. apply andb_false_iff. rewrite !Nat.eqb_neq. destruct (Nat.eq_dec a p); [|lia].
          destruct (Nat.eq_dec b q); [|lia]. subst. rewrite (Nat.mul_comm q n) in E. lia. }
      rewrite E1, E2. destruct ((S a =? S q) && (S b =? S p)), ((S a =? S p) && (S b =? S q)); auto.
    - cbn in P. destruct P as (Pa & Pb & Pc & Pd). destruct a, b, c, d0; try congruence.
      cbn [line_classification Nat.eqb negb orb andb]. exists T. split; auto.
  Qed.
  Lemma loop1 es : (forall e, In e es -> proper e /\ forall i, In i (indices e) -> i <= n) ->
    forall T, List.length T = n * n -> exists T', foldM es step1 T = Ok T' /\ List.length T' = n * n /\
    forall p q d, p < n -> q < n -> nth (pos2 n p q) T' d = last_value (fun e => one_at e p q) es (nth (pos2 n p q) T d).
  Proof.
    induction es as [|e es IH]; intros H T L; cbn [foldM].
    - exists T. auto.
    - destruct (H e (or_introl eq_refl)) as [Pe Be]. destruct (step1_ok T e Pe Be L) as (T1 & -> & L1 & N1). cbn [bind].
      destruct (IH ltac:(intros e' He; apply H; right; auto) T1 L1) as (T' & E & L' & N').
      exists T'. split; auto. split; auto. intros p q d Hp Hq. rewrite N', N1 by auto. reflexivity.
  Qed.

  Definition step2 (V : list Qc) (e : integral) : res (list Qc) :=
      let '(p, q, r, s, integral) := e in
      match line_classification p q r s with
      | TwoBody =>
        do p <- pred_ p;
        do q <- pred_ q;
        do r <- pred_ r;
        do s <- pred_ s;
        foldM [(p, q, r, s); (p, q, s, r); (q, p, r, s); (q, p, s, r);
               (r, s, p, q); (s, r, p, q); (r, s, q, p); (s, r, q, p)] (fun V i =>
          let '(a, b, c, d) := i in
          do x <- span4 n a b c d;
          put V x integral) V
      | _ => Ok V
      end.
  Lemma pos4_eqb a b c d p q r s : a < n -> b < n -> c < n -> p < n -> q < n -> r < n ->
    (pos4 n a b c d =? pos4 n p q r s) = ((S a =? S p) && (S b =? S q) && ((S c =? S r) && (S d =? S s))).
  Proof.
    intros. cbn [Nat.eqb]. unfold pos4. destruct (Nat.eqb_spec (a + n * (b + n * (c + n * d))) (p + n * (q + n * (r + n * s)))) as [E|E].
    - apply idx_inj in E; auto. destruct E as [-> E]. apply idx_inj in E; auto. destruct E as [-> E].
      apply idx_inj in E; auto. destruct E as [-> ->]. rewrite !Nat.eqb_refl. auto.
    - destruct (Nat.eqb_spec a p), (Nat.eqb_spec b q), (Nat.eqb_spec c r), (Nat.eqb_spec d s); auto. subst. congruence.
  Qed.
  Lemma pos4_lt a b c d : a < n -> b < n -> c < n -> d < n -> pos4 n a b c d < n * (n * (n * n)).
  Proof. intros. unfold pos4. repeat apply idx_lt; auto. Qed.
  Lemma two_zero a b c d v p q r s : a = 0 \/ b = 0 \/ c = 0 \/ d = 0 -> two_at (a, b, c, d, v) p q r s = false.
  Proof.
    intros H. unfold two_at, same_pair. destruct H as [-> |[-> |[-> | ->]]]; cbn [Nat.eqb andb orb];
    rewrite ?andb_false_r; cbn [orb]; rewrite ?andb_false_r, ?andb_false_l; auto.
  Qed.
  Lemma step2_ok V e : (forall i, In i (indices e) -> i <= n) -> List.length V = n * (n * (n * n)) ->
    exists V', step2 V e = Ok V' /\ List.length V' = List.length V /\
    forall p q r s d, p < n -> q < n -> r < n -> s < n ->
      nth (pos4 n p q r s) V' d = if two_at e p q r s then value e else nth (pos4 n p q r s) V d.
  Proof.
    destruct e as [[[[a b] c] d0] v]. intros B L. cbn [indices] in B. cbn [step2 value snd].
    assert (P : (a = 0 \/ b = 0 \/ c = 0 \/ d0 = 0) \/ (a <> 0 /\ b <> 0 /\ c <> 0 /\ d0 <> 0)) by lia.
    destruct P as [P|(Pa & Pb & Pc & Pd)].
    - exists V. split; [|split; [reflexivity|intros; rewrite two_zero by auto; reflexivity]].
      destruct a as [|a], b as [|b], c as [|c], d0 as [|d0]; try reflexivity. exfalso. lia.
    -
      assert (a <= n /\ b <= n /\ c <= n /\ d0 <= n) as (Ba & Bb & Bc & Bd) by (repeat split; apply B; cbn; auto).
      destruct a as [|a], b as [|b], c as [|c], d0 as [|d0]; try congruence.
      cbn [line_classification Nat.eqb negb orb andb pred_ bind].
      set (l := [(a, b, c, d0); (a, b, d0, c); (b, a, c, d0); (b, a, d0, c); (c, d0, a, b); (d0, c, a, b); (c, d0, b, a); (d0, c, b, a)]).
      set (pa := fun i : nat * nat * nat * nat => let '(x, y, z, w) := i in pos4 n x y z w).
      assert (Hl : forall x y z w, In (x, y, z, w) l -> x < n /\ y < n /\ z < n /\ w < n).
      { intros x y z w Hi. unfold l in Hi. cbn [In] in Hi.
        repeat (destruct Hi as [Hi|Hi]; [injection Hi as <- <- <- <-; lia|]). destruct Hi. }
      match goal with |- context [foldM l ?g V] => destruct (put_same g pa v (n * (n * (n * n))) l V) as (V' & E & LV & NV) end; auto.
      { intros [[[x y] z] w] Hi. apply Hl in Hi. apply pos4_lt; apply Hi. }
      { intros [[[x y] z] w] V0 Hi _. apply Hl in Hi. destruct Hi as (Hx & Hy & Hz & Hw).
        unfold span4, pa. repeat match goal with |- context [Nat.ltb ?u n] => destruct (Nat.ltb_spec u n); [|lia] end.
        cbn [andb bind]. reflexivity. }
      exists V'. split; auto. split; [lia|].
      intros p q r s d Hp Hq Hr Hs. rewrite NV.
      replace (existsb (fun i => pa i =? pos4 n p q r s) l) with (two_at (S a, S b, S c, S d0, v) p q r s); auto.
      unfold l. cbn [existsb pa]. rewrite !pos4_eqb by lia. unfold two_at, same_pair.
      apply eq_true_iff_eq. repeat (rewrite ?orb_true_iff, ?andb_true_iff). intuition auto; discriminate.
  Qed.
  Lemma loop2 es : (forall e, In e es -> forall i, In i (indices e) -> i <= n) ->
    forall V, List.length V = n * (n * (n * n)) -> exists V', foldM es step2 V = Ok V' /\ List.length V' = List.length V /\
    forall p q r s d, p < n -> q < n -> r < n -> s < n ->
      nth (pos4 n p q r s) V' d = last_value (fun e => two_at e p q r s) es (nth (pos4 n p q r s) V d).
  Proof.
    induction es as [|e es IH]; intros H V L; cbn [foldM].
    - exists V. auto.
    - pose proof (H e (or_introl eq_refl)) as Be. destruct (step2_ok V e Be L) as (T1 & -> & L1 & N1). cbn [bind].
      destruct (IH ltac:(intros e' He; apply H; right; auto) T1 ltac:(lia)) as (T' & E & L' & N').
      exists T'. split; auto. split; [lia|]. intros p q r s d Hp Hq Hr Hs. rewrite N', N1 by auto. reflexivity.
  Qed.
End Read.

Lemma max_bound es e i : In e es -> In i (indices e) -> i <= max_index es.
Proof.
  intros H1 H2. unfold max_index. assert (H : In i (flat_map indices es)) by (apply in_flat_map; eauto).
  induction (flat_map indices es) as [|x l IH]; [destruct H|]. cbn [fold_right]. destruct H as [->|H]; [lia|].
  specialize (IH H). lia.
Qed.
Section File.
  Variables (rnd : Q -> res Qc) (file : text) (es : list integral).
  Hypotheses (HD : data_lines rnd (lines file) es) (HP : forall e, In e es -> proper e).
  Let n := max_index es.

  Lemma c24_one T : List.length T = n * n -> exists T',
    read_fcidump_1body_raw rnd file T n = Ok T' /\ List.length T' = n * n /\
    forall p q d, p < n -> q < n -> nth (pos2 n p q) T' d = last_value (fun e => one_at e p q) es (nth (pos2 n p q) T d).
  Proof.
    intros L. unfold read_fcidump_1body_raw, read_fcidump_1body.
    rewrite (norb_ok _ _ _ HD). cbn [bind]. fold n. rewrite !Nat.eqb_refl. cbn [negb].
    rewrite (for_lines_ok _ _ es) by auto. apply (loop1 n es); auto.
    intros e He. split; auto. intros i. apply max_bound. auto.
  Qed.
  Lemma c24_two V : List.length V = n * (n * (n * n)) -> exists V',
    read_fcidump_2body_raw rnd file V n = Ok V' /\ List.length V' = List.length V /\
    forall p q r s d, p < n -> q < n -> r < n -> s < n ->
      nth (pos4 n p q r s) V' d = last_value (fun e => two_at e p q r s) es (nth (pos4 n p q r s) V d).
  Proof.
    intros L. unfold read_fcidump_2body_raw, read_fcidump_2body.
    rewrite (norb_ok _ _ _ HD). cbn [bind]. fold n. rewrite !Nat.eqb_refl. cbn [negb orb].
    rewrite (for_lines_ok _ _ es) by auto. apply (loop2 n es); auto.
    intros e He i. apply max_bound. auto.
  Qed.
End File.
