(** Packing and unpacking of orbital rotations, the gradient (C47). *)
From Coq Require Import QArith Qcanon Bool Lia.
From Verif Require Import Base Sums Ham HamProofs Asci Mem MemProofs SparseProofs1 RdmIOProofs Dense DenseSpec DenseProofs FockMatProofs.
Local Open Scope nat_scope.

(** *** loops that write a value determined by the place *)
Fixpoint puts (s : list Qc) (w : list nat) (h : nat -> Qc) : res (list Qc) :=
  match w with [] => Ok s | x :: r => do s' <- put s x (h x); puts s' r h end.
Lemma puts_ok w : forall s h, (forall x, In x w -> x < length s) ->
  exists s', puts s w h = Ok s' /\ length s' = length s /\ (forall x, In x w -> nth x s' 0%Qc = h x) /\ (forall x, ~ In x w -> nth x s' 0%Qc = nth x s 0%Qc).
Proof.
  induction w as [|x r IH]; intros s h B; cbn [puts].
  - exists s. repeat split; auto. intros x [].
  - rewrite put_ok by (apply B; left; auto). cbn [bind].
    destruct (IH (upd s x (h x)) h) as (s' & E & L & R & U).
    { intros y Hy. rewrite upd_length. apply B. right; auto. }
    rewrite upd_length in L. exists s'. split; auto. split; auto. split.
    + intros y Hy. destruct (in_dec Nat.eq_dec y r) as [I|I]; auto. destruct Hy as [->|Hy]; [|contradiction].
      rewrite U by auto. rewrite upd_nth by (apply B; left; auto). rewrite Nat.eqb_refl. reflexivity.
    + intros y Hy. rewrite U by (intros I; apply Hy; right; auto). rewrite upd_nth by (apply B; left; auto). destruct (Nat.eqb_spec y x); auto. subst. exfalso. apply Hy. left; auto.
Qed.
Lemma scatter {I} (l : list I) (w : I -> list nat) (h : nat -> Qc) (f : list Qc -> I -> res (list Qc)) : forall s,
  (forall e x, In e l -> In x (w e) -> x < length s) ->
  (forall s' e, In e l -> length s' = length s -> f s' e = puts s' (w e) h) ->
  exists s', foldM l f s = Ok s' /\ length s' = length s /\ (forall e x, In e l -> In x (w e) -> nth x s' 0%Qc = h x) /\
    (forall x, (forall e, In e l -> ~ In x (w e)) -> nth x s' 0%Qc = nth x s 0%Qc).
Proof.
  induction l as [|e r IH]; intros s B F; cbn [foldM].
  - exists s. repeat split; auto. intros e x [].
  - rewrite F by (auto; left; auto). destruct (puts_ok (w e) s h) as (s1 & -> & L1 & R1 & U1).
    { intros x Hx. apply (B e); auto. left; auto. } cbn [bind].
    destruct (IH s1) as (s' & E & L & R & U).
    { intros e' x He Hx. rewrite L1. apply (B e'); auto. right; auto. }
    { intros s2 e' He L2. apply F; [right; auto|lia]. }
    exists s'. split; auto. split; [lia|]. split.
    + intros e' x [<-|He] Hx; eauto.
      assert (D : (exists e', In e' r /\ In x (w e')) \/ (forall e', In e' r -> ~ In x (w e'))).
      { clear - r. induction r as [|a r IH]; [right; intros ? []|]. destruct IH as [(e' & H & H')|N]; [left; exists e'; split; auto; right; auto|].
        destruct (in_dec Nat.eq_dec x (w a)); [left; exists a; split; auto; left; auto|]. right. intros e' [<-|H]; auto. }
      destruct D as [(e' & H & H')|N]; eauto. rewrite U by auto. apply R1; auto.
    + intros x Hx. rewrite U by (intros e' He; apply Hx; right; auto). apply U1. apply Hx. left; auto.
Qed.

(** *** pairs *)
Lemma rotatesb_iff ni na nv p q : rotatesb ni na nv p q = true <-> rotates ni na nv p q.
Proof.
  unfold rotatesb, rotates. rewrite orb_true_iff, !andb_true_iff, !Nat.leb_le, !Nat.ltb_lt. lia.
Qed.
Lemma rotatesb_not ni na nv p q : rotatesb ni na nv p q = false <-> ~ rotates ni na nv p q.
Proof. rewrite <- rotatesb_iff. destruct (rotatesb ni na nv p q); split; intros; congruence. Qed.
Lemma rotates_asym ni na nv p q : rotates ni na nv p q -> ~ rotates ni na nv q p.
Proof. unfold rotates. lia. Qed.
Lemma rotates_bound ni na nv p q : rotates ni na nv p q -> p < ni + na + nv /\ q < ni + na + nv /\ q < p.
Proof. unfold rotates. lia. Qed.
Lemma rotates_cases ni na nv p q : rotates ni na nv p q <->
  (exists i a, i < ni /\ a < nv /\ p = a + ni + na /\ q = i) \/
  (exists i a, i < na /\ a < nv /\ p = a + ni + na /\ q = i + ni) \/
  (exists i a, i < ni /\ a < na /\ p = a + ni /\ q = i).
Proof.
  unfold rotates. split.
  - intros [[H1 H2]|[H1 H2]].
    + destruct (Nat.lt_ge_cases p (ni + na)).
      * right; right. exists q, (p - ni). lia.
      * left. exists q, (p - ni - na). lia.
    + right; left. exists (q - ni), (p - ni - na). lia.
  - intros [(i & a & H)|[(i & a & H)|(i & a & H)]]; lia.
Qed.
Lemma rot_index_vi ni na nv i a : i < ni -> rot_index ni na nv (a + ni + na) i = a + i * nv.
Proof. intros H. unfold rot_index. destruct (Nat.ltb_spec i ni); [|lia]. destruct (Nat.ltb_spec (a + ni + na) (ni + na)); lia. Qed.
Lemma rot_index_va ni na nv i a : rot_index ni na nv (a + ni + na) (i + ni) = nv * ni + (a + i * nv).
Proof. unfold rot_index. destruct (Nat.ltb_spec (i + ni) ni); [lia|]. replace (a + ni + na - ni - na) with a by lia. replace (i + ni - ni) with i by lia. reflexivity. Qed.
Lemma rot_index_ai ni na nv i a : i < ni -> a < na -> rot_index ni na nv (a + ni) i = nv * ni + nv * na + (a + i * na).
Proof. intros H H'. unfold rot_index. destruct (Nat.ltb_spec i ni); [|lia]. destruct (Nat.ltb_spec (a + ni) (ni + na)); [|lia]. replace (a + ni - ni) with a by lia. reflexivity. Qed.
Lemma cell n m a i : i < m -> a < n -> a + i * n < n * m. Proof. intros. nia. Qed.
Lemma rot_index_bound ni na nv p q : rotates ni na nv p q -> rot_index ni na nv p q < rot_size ni na nv.
Proof.
  intros H. apply rotates_cases in H. unfold rot_size. destruct H as [(i & a & Hi & Ha & -> & ->)|[(i & a & Hi & Ha & -> & ->)|(i & a & Hi & Ha & -> & ->)]].
  - rewrite rot_index_vi by auto. pose proof (cell nv ni a i Hi Ha). lia.
  - rewrite rot_index_va. pose proof (cell nv na a i Hi Ha). lia.
  - rewrite rot_index_ai by auto. pose proof (cell na ni a i Hi Ha). lia.
Qed.
Lemma uncell n m x : x < n * m -> exists a i, i < m /\ a < n /\ x = a + i * n.
Proof.
  intros H. assert (n <> 0) by lia. exists (x mod n), (x / n). pose proof (Nat.div_mod x n H0). pose proof (Nat.mod_upper_bound x n H0).
  split; [apply Nat.div_lt_upper_bound; auto|]. split; auto. lia.
Qed.
Lemma rot_index_onto ni na nv x : x < rot_size ni na nv -> exists p q, rotates ni na nv p q /\ rot_index ni na nv p q = x.
Proof.
  unfold rot_size. intros H. destruct (Nat.lt_ge_cases x (nv * ni)) as [L|L].
  - destruct (uncell nv ni x L) as (a & i & Hi & Ha & ->). exists (a + ni + na), i. split; [|apply rot_index_vi; auto]. unfold rotates. lia.
  - destruct (Nat.lt_ge_cases x (nv * ni + nv * na)) as [L2|L2].
    + destruct (uncell nv na (x - nv * ni) ltac:(lia)) as (a & i & Hi & Ha & E). exists (a + ni + na), (i + ni). split; [unfold rotates; lia|]. rewrite rot_index_va. lia.
    + destruct (uncell na ni (x - nv * ni - nv * na) ltac:(lia)) as (a & i & Hi & Ha & E). exists (a + ni), i. split; [unfold rotates; lia|]. rewrite rot_index_ai by auto. lia.
Qed.
Lemma rot_matrix_pair ni na nv k p q : rotates ni na nv p q -> rot_matrix ni na nv k p q = nth (rot_index ni na nv p q) k 0%Qc.
Proof. intros H. unfold rot_matrix. apply rotatesb_iff in H. rewrite H. reflexivity. Qed.
Lemma rot_matrix_anti ni na nv k p q : rot_matrix ni na nv k q p = (- rot_matrix ni na nv k p q)%Qc.
Proof.
  unfold rot_matrix. destruct (rotatesb ni na nv p q) eqn:E1, (rotatesb ni na nv q p) eqn:E2; try ring.
  apply rotatesb_iff in E1, E2. apply rotates_asym in E1. contradiction.
Qed.
Lemma rot_matrix_zero ni na nv k p q : ~ rotates ni na nv p q -> ~ rotates ni na nv q p -> rot_matrix ni na nv k p q = 0%Qc.
Proof. intros H1 H2. unfold rot_matrix. apply rotatesb_not in H1, H2. rewrite H1, H2. reflexivity. Qed.

(** *** unpacking *)
Lemma put_of_h s x (h : nat -> Qc) v : h x = v -> put s x v = put s x (h x). Proof. intros ->. reflexivity. Qed.
Lemma unpack_ok ni na nv k K LDK : rot_size ni na nv <= length k -> fits2 K LDK (ni + na + nv) (ni + na + nv) ->
  exists K', unpack_rotation ni na nv k K LDK = Ok K' /\ length K' = length K /\
    (forall p q, rotates ni na nv p q -> at2 K' LDK p q = rot_matrix ni na nv k p q /\ at2 K' LDK q p = rot_matrix ni na nv k q p) /\
    (forall x, (forall p q, rotates ni na nv p q -> x <> p + q * LDK /\ x <> q + p * LDK) -> nth x K' 0%Qc = nth x K 0%Qc).
Proof.
  intros Hk [HK1 HK2]. unfold unpack_rotation, split_linear, linear_orb_rot_to_matrix.
  set (n := ni + na + nv) in *.
  set (h := fun x => rot_matrix ni na nv k (x mod LDK) (x / LDK)).
  assert (Hh : forall p q, p < n -> q < n -> h (p + q * LDK) = rot_matrix ni na nv k p q).
  { intros p q Hp Hq. unfold h. rewrite Nat.mod_add, Nat.div_add, Nat.mod_small, Nat.div_small by lia. reflexivity. }
  set (w := fun p q : nat => [p + q * LDK; q + p * LDK]).
  assert (step : forall s p q x, rotates ni na nv p q -> x = rot_index ni na nv p q ->
            (do v <- at_ k x; do s' <- put s (p + q * LDK) v; put s' (q + p * LDK) (- v)%Qc) = puts s (w p q) h).
  { intros s p q x R ->. pose proof (rotates_bound _ _ _ _ _ R) as (Bp & Bq & _). fold n in Bp, Bq.
    rewrite (at_ok _ _ 0%Qc) by (pose proof (rot_index_bound _ _ _ _ _ R); lia). cbn [bind]. unfold w. cbn [puts].
    rewrite !Hh by auto. rewrite (rot_matrix_anti ni na nv k p q), (rot_matrix_pair ni na nv k p q) by auto.
    destruct (put s (p + q * LDK) _) as [s1|]; cbn [bind]; auto. destruct (put s1 (q + p * LDK) _); reflexivity. }
  assert (bnd : forall p q x, rotates ni na nv p q -> In x (w p q) -> x < length K).
  { intros p q x R [<-|[<-|[]]]; apply rotates_bound in R; apply HK2; unfold n; lia. }
  match goal with |- context [foldM (loop2 ni nv) ?f K] =>
    destruct (scatter (loop2 ni nv) (fun ia => w (snd ia + ni + na) (fst ia)) h f K) as (K1 & E1 & L1 & R1 & U1) end.
  { intros [i a] x He. apply in_loop2 in He. apply bnd. unfold rotates. cbn. lia. }
  { intros s' [i a] He L. apply in_loop2 in He. cbn [fst snd]. cbv zeta. apply (step s' (a + ni + na) i); [unfold rotates; lia|]. rewrite rot_index_vi; lia. }
  rewrite E1. cbn [bind]. clear E1.
  match goal with |- context [foldM (loop2 na nv) ?f K1] =>
    destruct (scatter (loop2 na nv) (fun ia => w (snd ia + ni + na) (fst ia + ni)) h f K1) as (K2 & E2 & L2 & R2 & U2) end.
  { intros [i a] x He. rewrite L1. apply in_loop2 in He. apply bnd. unfold rotates. cbn. lia. }
  { intros s' [i a] He L. apply in_loop2 in He. cbn [fst snd]. cbv zeta. apply (step s' (a + ni + na) (i + ni)); [unfold rotates; lia|]. rewrite rot_index_va; lia. }
  rewrite E2. cbn [bind]. clear E2.
  match goal with |- context [foldM (loop2 ni na) ?f K2] =>
    destruct (scatter (loop2 ni na) (fun ia => w (snd ia + ni) (fst ia)) h f K2) as (K3 & E3 & L3 & R3 & U3) end.
  { intros [i a] x He. rewrite L2, L1. apply in_loop2 in He. apply bnd. unfold rotates. cbn. lia. }
  { intros s' [i a] He L. apply in_loop2 in He. cbn [fst snd]. cbv zeta. apply (step s' (a + ni) i); [unfold rotates; lia|]. rewrite rot_index_ai; lia. }
  rewrite E3. exists K3. split; auto. split; [lia|].
  (* a place written by an earlier loop keeps the value h even if written again *)
  assert (keep : forall {I} (l : list I) w' s s' x, (forall e y, In e l -> In y (w' e) -> nth y s' 0%Qc = h y) ->
     (forall y, (forall e, In e l -> ~ In y (w' e)) -> nth y s' 0%Qc = nth y s 0%Qc) -> nth x s 0%Qc = h x -> nth x s' 0%Qc = h x).
  { clear. intros I l w' s s' x R U E.
    assert (D : (exists e', In e' l /\ In x (w' e')) \/ (forall e', In e' l -> ~ In x (w' e'))).
    { clear - l. induction l as [|a r IH]; [right; intros ? []|]. destruct IH as [(e' & H & H')|N]; [left; exists e'; split; auto; right; auto|].
      destruct (in_dec Nat.eq_dec x (w' a)); [left; exists a; split; auto; left; auto|]. right. intros e' [<-|H]; auto. }
    destruct D as [(e' & H & H')|N]; eauto. rewrite U by auto. auto. }
  assert (all : forall p q x, rotates ni na nv p q -> In x (w p q) -> nth x K3 0%Qc = h x).
  { intros p q x R Hx. apply rotates_cases in R. destruct R as [(i & a & Hi & Ha & -> & ->)|[(i & a & Hi & Ha & -> & ->)|(i & a & Hi & Ha & -> & ->)]].
    - eapply (keep _ _ _ K2 K3); [exact R3|exact U3|]. eapply (keep _ _ _ K1 K2); [exact R2|exact U2|]. apply (R1 (i, a)); auto. apply in_loop2; auto.
    - eapply (keep _ _ _ K2 K3); [exact R3|exact U3|]. apply (R2 (i, a)); auto. apply in_loop2; auto.
    - apply (R3 (i, a)); auto. apply in_loop2; auto. }
  split.
  - intros p q R. pose proof (rotates_bound _ _ _ _ _ R) as (Bp & Bq & _). unfold at2.
    rewrite (all p q), (all p q) by (auto; unfold w; cbn; auto). rewrite !Hh by auto. auto.
  - intros x Hx. assert (N : forall p q, rotates ni na nv p q -> ~ In x (w p q)).
    { intros p q R [E|[E|[]]]; destruct (Hx p q R); auto. }
    rewrite U3, U2, U1; auto; intros [i a] He; apply in_loop2 in He; apply N; unfold rotates; cbn; lia.
Qed.
Lemma unpack_zero ni na nv k : rot_size ni na nv <= length k ->
  let n := ni + na + nv in
  exists K, unpack_rotation ni na nv k (repeat 0%Qc (n * n)) n = Ok K /\ length K = n * n /\
    forall p q, p < n -> q < n -> at2 K n p q = rot_matrix ni na nv k p q.
Proof.
  intros Hk n. destruct (unpack_ok ni na nv k (repeat 0%Qc (n * n)) n Hk (fits2_repeat n n 0%Qc)) as (K & E & L & R & U).
  rewrite repeat_length in L. exists K. split; auto. split; auto. intros p q Hp Hq.
  destruct (rotatesb ni na nv p q) eqn:E1; [apply rotatesb_iff in E1; exact (proj1 (R _ _ E1))|].
  destruct (rotatesb ni na nv q p) eqn:E2; [apply rotatesb_iff in E2; exact (proj2 (R _ _ E2))|].
  apply rotatesb_not in E1, E2. rewrite rot_matrix_zero by auto. unfold at2. rewrite U; [apply nth_repeat|].
  intros p' q' R'. pose proof (rotates_bound _ _ _ _ _ R') as (Bp & Bq & _). split; intros EE; apply pos2_inj in EE; auto; destruct EE as [-> ->]; auto.
Qed.

(** *** packing *)
Lemma pack_ok pick ni na nv F G (g : nat -> nat -> Qc) : rot_size ni na nv <= length G ->
  (forall p q, rotates ni na nv p q -> pick F p q = Ok (g p q)) ->
  let '(vi, va, ai) := split_linear ni na nv in
  exists G', pack_blocks pick ni na nv F G vi va ai = Ok G' /\ length G' = length G /\
    (forall p q, rotates ni na nv p q -> nth (rot_index ni na nv p q) G' 0%Qc = g p q) /\
    (forall x, rot_size ni na nv <= x -> nth x G' 0%Qc = nth x G 0%Qc).
Proof.
  intros HG HF. unfold split_linear, pack_blocks, rot_size in *.
  match goal with |- context [foldM (loop2 ni nv) ?f G] =>
    destruct (fill2 ni nv (fun i a => 0 + (a + i * nv)) (fun i a => g (a + ni + na) i) f G) as (G1 & E1 & L1 & R1 & U1) end.
  { intros i a i' a' Hi Ha Hi' Ha' E. destruct (pos2_inj nv a i a' i'); lia. }
  { intros i a Hi Ha. pose proof (cell nv ni a i Hi Ha). lia. }
  { intros s i a Hi Ha. cbv zeta. rewrite HF by (unfold rotates; lia). reflexivity. }
  rewrite E1. cbn [bind].
  match goal with |- context [foldM (loop2 na nv) ?f G1] =>
    destruct (fill2 na nv (fun i a => nv * ni + (a + i * nv)) (fun i a => g (a + ni + na) (i + ni)) f G1) as (G2 & E2 & L2 & R2 & U2) end.
  { intros i a i' a' Hi Ha Hi' Ha' E. destruct (pos2_inj nv a i a' i'); lia. }
  { intros i a Hi Ha. pose proof (cell nv na a i Hi Ha). lia. }
  { intros s i a Hi Ha. cbv zeta. rewrite HF by (unfold rotates; lia). reflexivity. }
  rewrite E2. cbn [bind].
  match goal with |- context [foldM (loop2 ni na) ?f G2] =>
    destruct (fill2 ni na (fun i a => nv * ni + nv * na + (a + i * na)) (fun i a => g (a + ni) i) f G2) as (G3 & E3 & L3 & R3 & U3) end.
  { intros i a i' a' Hi Ha Hi' Ha' E. destruct (pos2_inj na a i a' i'); lia. }
  { intros i a Hi Ha. pose proof (cell na ni a i Hi Ha). lia. }
  { intros s i a Hi Ha. cbv zeta. rewrite HF by (unfold rotates; lia). reflexivity. }
  rewrite E3. exists G3. split; auto. split; [lia|]. split.
  - intros p q R. apply rotates_cases in R. destruct R as [(i & a & Hi & Ha & -> & ->)|[(i & a & Hi & Ha & -> & ->)|(i & a & Hi & Ha & -> & ->)]].
    + rewrite rot_index_vi by auto. pose proof (cell nv ni a i Hi Ha). rewrite U3 by (intros; lia). rewrite U2 by (intros; lia). apply (R1 i a); auto.
    + rewrite rot_index_va. pose proof (cell nv na a i Hi Ha). rewrite U3 by (intros; lia). apply (R2 i a); auto.
    + rewrite rot_index_ai by auto. apply (R3 i a); auto.
  - intros x Hx. rewrite U3, U2, U1; auto; intros i a Hi Ha; [pose proof (cell nv ni a i Hi Ha)|pose proof (cell nv na a i Hi Ha)|pose proof (cell na ni a i Hi Ha)]; lia.
Qed.
Lemma pack_rotation_ok ni na nv F LDF G : rot_size ni na nv <= length G -> fits2 F LDF (ni + na + nv) (ni + na + nv) ->
  exists G', pack_rotation ni na nv F LDF G = Ok G' /\ length G' = length G /\
    (forall p q, rotates ni na nv p q -> nth (rot_index ni na nv p q) G' 0%Qc = at2 F LDF p q) /\
    (forall x, rot_size ni na nv <= x -> nth x G' 0%Qc = nth x G 0%Qc).
Proof.
  intros HG HF. apply (pack_ok (fun F p q => at_ F (p + q * LDF)) ni na nv F G (at2 F LDF)); auto.
  intros p q R. apply rotates_bound in R. apply (read2 F LDF (ni + na + nv) (ni + na + nv)); tauto.
Qed.
Lemma pack_gradient_ok ni na nv F LDF G : rot_size ni na nv <= length G -> fits2 F LDF (ni + na + nv) (ni + na + nv) ->
  exists G', pack_gradient ni na nv F LDF G = Ok G' /\ length G' = length G /\
    (forall p q, rotates ni na nv p q -> nth (rot_index ni na nv p q) G' 0%Qc = (two * (at2 F LDF p q - at2 F LDF q p))%Qc) /\
    (forall x, rot_size ni na nv <= x -> nth x G' 0%Qc = nth x G 0%Qc).
Proof.
  intros HG HF. apply (pack_ok (fun F p q => do x <- at_ F (p + q * LDF); do y <- at_ F (q + p * LDF); Ok (twice (x - y))) ni na nv F G
    (fun p q => two * (at2 F LDF p q - at2 F LDF q p))%Qc); auto.
  intros p q R. apply rotates_bound in R. rewrite (read2 F LDF (ni + na + nv) (ni + na + nv)) by tauto. cbn [bind].
  rewrite (read2 F LDF (ni + na + nv) (ni + na + nv)) by tauto. cbn [bind]. rewrite twice_two. reflexivity.
Qed.

(** *** the gradient matrix *)
Lemma gradient_matrix_ok ni na nv F LDF OG LDG : fits2 F LDF (ni + na + nv) (ni + na + nv) -> fits2 OG LDG (ni + na + nv) (ni + na + nv) ->
  exists OG', fock_to_gradient ni na nv F LDF OG LDG = Ok OG' /\ length OG' = length OG /\
    (forall p q, rotates ni na nv p q \/ rotates ni na nv q p -> at2 OG' LDG p q = (two * (at2 F LDF p q - at2 F LDF q p))%Qc) /\
    (forall x, (forall p q, rotates ni na nv p q -> x <> p + q * LDG /\ x <> q + p * LDG) -> nth x OG' 0%Qc = nth x OG 0%Qc).
Proof.
  intros HF [HG1 HG2]. unfold fock_to_gradient.
  set (n := ni + na + nv) in *.
  set (g := fun p q => (two * (at2 F LDF p q - at2 F LDF q p))%Qc).
  set (h := fun x => g (x mod LDG) (x / LDG)).
  assert (Hh : forall p q, p < n -> q < n -> h (p + q * LDG) = g p q).
  { intros p q Hp Hq. unfold h. rewrite Nat.mod_add, Nat.div_add, Nat.mod_small, Nat.div_small by lia. reflexivity. }
  set (w := fun p q : nat => [p + q * LDG; q + p * LDG]).
  assert (step : forall s p q, rotates ni na nv p q -> length s = length OG ->
     (do x <- at_ F (p + q * LDF); do y <- at_ F (q + p * LDF); do OG <- put s (p + q * LDG) (twice (x - y));
      do g <- at_ OG (p + q * LDG); put OG (q + p * LDG) (- g)%Qc) = puts s (w p q) h).
  { intros s p q R Ls. pose proof (rotates_bound _ _ _ _ _ R) as (Bp & Bq & _). fold n in Bp, Bq.
    rewrite (read2 F LDF n n) by auto. cbn [bind]. rewrite (read2 F LDF n n) by auto. cbn [bind]. unfold w. cbn [puts]. rewrite !Hh by auto.
    replace (twice (at2 F LDF p q - at2 F LDF q p)) with (g p q) by (unfold g; rewrite twice_two; reflexivity).
    assert (B1 : p + q * LDG < length s) by (rewrite Ls; apply HG2; auto). rewrite put_ok by auto. cbn [bind].
    rewrite (at_ok _ _ 0%Qc) by (rewrite upd_length; auto). cbn [bind]. rewrite upd_nth, Nat.eqb_refl by auto.
    replace (- g p q)%Qc with (g q p) by (unfold g; ring).
    destruct (put _ (q + p * LDG) (g q p)); reflexivity. }
  assert (bnd : forall p q x, rotates ni na nv p q -> In x (w p q) -> x < length OG).
  { intros p q x R [<-|[<-|[]]]; apply rotates_bound in R; apply HG2; unfold n; lia. }
  match goal with |- context [foldM (loop2 ni nv) ?f OG] =>
    destruct (scatter (loop2 ni nv) (fun ia => w (snd ia + ni + na) (fst ia)) h f OG) as (K1 & E1 & L1 & R1 & U1) end.
  { intros [i a] x He. apply in_loop2 in He. apply bnd. unfold rotates. cbn. lia. }
  { intros s' [i a] He L. apply in_loop2 in He. cbn [fst snd]. apply step; auto. unfold rotates. lia. }
  rewrite E1. cbn [bind]. clear E1.
  match goal with |- context [foldM (loop2 na nv) ?f K1] =>
    destruct (scatter (loop2 na nv) (fun ia => w (snd ia + ni + na) (fst ia + ni)) h f K1) as (K2 & E2 & L2 & R2 & U2) end.
  { intros [i a] x He. rewrite L1. apply in_loop2 in He. apply bnd. unfold rotates. cbn. lia. }
  { intros s' [i a] He L. apply in_loop2 in He. cbn [fst snd]. apply step; [unfold rotates|]; lia. }
  rewrite E2. cbn [bind]. clear E2.
  match goal with |- context [foldM (loop2 ni na) ?f K2] =>
    destruct (scatter (loop2 ni na) (fun ia => w (snd ia + ni) (fst ia)) h f K2) as (K3 & E3 & L3 & R3 & U3) end.
  { intros [i a] x He. rewrite L2, L1. apply in_loop2 in He. apply bnd. unfold rotates. cbn. lia. }
  { intros s' [i a] He L. apply in_loop2 in He. cbn [fst snd]. apply step; [unfold rotates|]; lia. }
  rewrite E3. exists K3. split; auto. split; [lia|].
  assert (keep : forall {I} (l : list I) w' s s' x, (forall e y, In e l -> In y (w' e) -> nth y s' 0%Qc = h y) ->
     (forall y, (forall e, In e l -> ~ In y (w' e)) -> nth y s' 0%Qc = nth y s 0%Qc) -> nth x s 0%Qc = h x -> nth x s' 0%Qc = h x).
  { clear. intros I l w' s s' x R U E.
    assert (D : (exists e', In e' l /\ In x (w' e')) \/ (forall e', In e' l -> ~ In x (w' e'))).
    { clear - l. induction l as [|a r IH]; [right; intros ? []|]. destruct IH as [(e' & H & H')|N]; [left; exists e'; split; auto; right; auto|].
      destruct (in_dec Nat.eq_dec x (w' a)); [left; exists a; split; auto; left; auto|]. right. intros e' [<-|H]; auto. }
    destruct D as [(e' & H & H')|N]; eauto. rewrite U by auto. auto. }
  assert (all : forall p q x, rotates ni na nv p q -> In x (w p q) -> nth x K3 0%Qc = h x).
  { intros p q x R Hx. apply rotates_cases in R. destruct R as [(i & a & Hi & Ha & -> & ->)|[(i & a & Hi & Ha & -> & ->)|(i & a & Hi & Ha & -> & ->)]].
    - eapply (keep _ _ _ K2 K3); [exact R3|exact U3|]. eapply (keep _ _ _ K1 K2); [exact R2|exact U2|]. apply (R1 (i, a)); auto. apply in_loop2; auto.
    - eapply (keep _ _ _ K2 K3); [exact R3|exact U3|]. apply (R2 (i, a)); auto. apply in_loop2; auto.
    - apply (R3 (i, a)); auto. apply in_loop2; auto. }
  split.
  - intros p q [R|R]; pose proof (rotates_bound _ _ _ _ _ R) as (Bp & Bq & _); unfold at2 at 1.
    + rewrite (all p q) by (auto; unfold w; cbn; auto). apply Hh; auto.
    + rewrite (all q p) by (auto; unfold w; cbn; auto). apply Hh; auto.
  - intros x Hx. assert (N : forall p q, rotates ni na nv p q -> ~ In x (w p q)).
    { intros p q R [E|[E|[]]]; destruct (Hx p q R); auto. }
    rewrite U3, U2, U1; auto; intros [i a] He; apply in_loop2 in He; apply N; unfold rotates; cbn; lia.
Qed.

(** *** round trips *)
Lemma pack_unpack ni na nv k G : length k = rot_size ni na nv -> length G = rot_size ni na nv ->
  let n := ni + na + nv in
  exists K, unpack_rotation ni na nv k (repeat 0%Qc (n * n)) n = Ok K /\ pack_rotation ni na nv K n G = Ok k.
Proof.
  intros Hk HG n. destruct (unpack_zero ni na nv k ltac:(lia)) as (K & E & L & R). exists K. split; auto. fold n in L, R.
  destruct (pack_rotation_ok ni na nv K n G ltac:(lia)) as (G' & E' & L' & R' & _).
  { split; auto. intros i j Hi Hj. fold n in Hi, Hj. rewrite L. nia. }
  rewrite E'. f_equal. apply (nth_ext' _ _ 0%Qc); [lia|]. intros x Hx. rewrite L', HG in Hx. apply rot_index_onto in Hx. destruct Hx as (p & q & Rt & <-).
  rewrite R' by auto. pose proof (rotates_bound _ _ _ _ _ Rt) as (Bp & Bq & _). rewrite R by auto. apply rot_matrix_pair; auto.
Qed.
Lemma unpack_pack ni na nv K G : let n := ni + na + nv in length K = n * n -> length G = rot_size ni na nv ->
  (forall p q, p < n -> q < n -> at2 K n q p = (- at2 K n p q)%Qc) ->
  (forall p q, p < n -> q < n -> ~ rotates ni na nv p q -> ~ rotates ni na nv q p -> at2 K n p q = 0%Qc) ->
  exists k, pack_rotation ni na nv K n G = Ok k /\ unpack_rotation ni na nv k (repeat 0%Qc (n * n)) n = Ok K.
Proof.
  intros n LK LG Ha Hz. destruct (pack_rotation_ok ni na nv K n G ltac:(lia)) as (k & E & L & R & _).
  { split; auto. intros i j Hi Hj. fold n in Hi, Hj. rewrite LK. nia. }
  exists k. split; auto. destruct (unpack_zero ni na nv k ltac:(lia)) as (K' & E' & L' & R'). fold n in E', L', R'. rewrite E'. f_equal.
  assert (Ex : forall p q, p < n -> q < n -> at2 K' n p q = at2 K n p q).
  { intros p q Hp Hq. rewrite R' by auto. destruct (rotatesb ni na nv p q) eqn:E1.
    - apply rotatesb_iff in E1. rewrite rot_matrix_pair by auto. apply R; auto.
    - destruct (rotatesb ni na nv q p) eqn:E2.
      + apply rotatesb_iff in E2. rewrite rot_matrix_anti, rot_matrix_pair by auto. rewrite R by auto. symmetry. apply Ha; auto.
      + apply rotatesb_not in E1, E2. rewrite rot_matrix_zero by auto. symmetry. apply Hz; auto. }
  apply (nth_ext' _ _ 0%Qc); [lia|]. intros x Hx. rewrite L' in Hx. destruct (uncell n n x Hx) as (a & i & Hi & Ha' & ->). apply (Ex a i); auto.
Qed.
Lemma pack_gradient_matrix ni na nv F LDF G : let n := ni + na + nv in fits2 F LDF n n -> length G = rot_size ni na nv ->
  exists g OG, pack_gradient ni na nv F LDF G = Ok g /\ fock_to_gradient ni na nv F LDF (repeat 0%Qc (n * n)) n = Ok OG /\
    pack_rotation ni na nv OG n G = Ok g /\ unpack_rotation ni na nv g (repeat 0%Qc (n * n)) n = Ok OG.
Proof.
  intros n HF LG. destruct (pack_gradient_ok ni na nv F LDF G ltac:(lia) HF) as (g & E & L & R & _).
  destruct (gradient_matrix_ok ni na nv F LDF (repeat 0%Qc (n * n)) n HF (fits2_repeat n n 0%Qc)) as (OG & E2 & L2 & R2 & U2).
  rewrite repeat_length in L2. exists g, OG. split; auto. split; auto.
  assert (Z : forall p q, p < n -> q < n -> ~ rotates ni na nv p q -> ~ rotates ni na nv q p -> at2 OG n p q = 0%Qc).
  { intros p q Hp Hq N1 N2. unfold at2. rewrite U2; [apply nth_repeat|]. intros p' q' R'. pose proof (rotates_bound _ _ _ _ _ R') as (Bp & Bq & _).
    split; intros EE; apply pos2_inj in EE; auto; destruct EE as [-> ->]; auto. }
  destruct (unpack_pack ni na nv OG G L2 LG) as (k & Ek & Eu).
  { fold n. intros p q Hp Hq. destruct (rotatesb ni na nv p q) eqn:E3.
    - apply rotatesb_iff in E3. rewrite (R2 p q), (R2 q p) by auto. ring.
    - destruct (rotatesb ni na nv q p) eqn:E4.
      + apply rotatesb_iff in E4. rewrite (R2 p q), (R2 q p) by auto. ring.
      + apply rotatesb_not in E3, E4. rewrite (Z p q), (Z q p) by auto. ring. }
  { exact Z. }
  assert (k = g); [|subst k; auto].
  destruct (pack_rotation_ok ni na nv OG n G ltac:(lia)) as (k' & Ek' & Lk & Rk & _).
  { split; auto. intros i j Hi Hj. fold n in Hi, Hj. rewrite L2. nia. }
  fold n in Ek. rewrite Ek in Ek'. injection Ek' as <-. apply (nth_ext' _ _ 0%Qc); [lia|]. intros x Hx. rewrite Lk, LG in Hx. apply rot_index_onto in Hx. destruct Hx as (p & q & Rt & <-).
  rewrite Rk, R by auto. apply R2. auto.
Qed.
