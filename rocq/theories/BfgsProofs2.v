(** The starting matrices; secant equation, symmetry and definiteness of the updates. *)
From Coq Require Import QArith Qcanon Lqa.
From Verif Require Import Base SD Sums Ham Asci Mem MemProofs DenseSpec DenseProofs DiisSpec DiisProofs DavSpec McscfSpec RotProofs ExpandProofs DiisProofs2 Bfgs BfgsSpec BfgsProofs.
Local Open Scope nat_scope.

Definition next_init (i : initial) (g : Qc) : initial :=
  match i with UpdatedScaled _ => UpdatedScaled g | StaticScaled None => StaticScaled (Some g) | i => i end.
Definition the_gamma (n : nat) (sy : list Qc * list Qc) : Qc := (dot n (snd sy) (snd sy) * (1 / dot n (snd sy) (fst sy)))%Qc.
Lemma h_update_ok n B s y : length s = n -> length y = n -> dot n y s <> 0%Qc ->
  h_update B s y = Ok (mk_hessian (next_init (h_init B) (the_gamma n (s, y))) (h_pairs B ++ triples n [(s, y)])).
Proof.
  intros Ls Ly NZ. unfold h_update. rewrite (v_dot_n n y s Ly), (v_dot_n n y y Ly). unfold fdiv.
  destruct (Qc_eq_dec (dot n y s) 0) as [e|_]; [contradiction|]. cbn [bind]. unfold next_init, the_gamma. cbn [fst snd].
  destruct (h_init B) as [ |g|[g|] |f|d]; reflexivity.
Qed.
Definition upd_all (h : list (list Qc * list Qc)) (B : hessian) : res hessian := foldM h (fun B sy => h_update B (fst sy) (snd sy)) B.
Lemma updates_ok n h : steps_ok n h -> forall B,
  upd_all h B = Ok (mk_hessian (fold_left (fun i sy => next_init i (the_gamma n sy)) h (h_init B)) (h_pairs B ++ triples n h)).
Proof.
  induction h as [|[s y] h IH]; intros OK B; [cbn; rewrite app_nil_r; destruct B; reflexivity|].
  destruct (OK s y) as (Ls & Ly & NZ); [left; reflexivity|]. unfold upd_all. cbn [foldM fst snd]. rewrite (h_update_ok n B s y Ls Ly NZ). cbn [bind].
  change (upd_all h (mk_hessian (next_init (h_init B) (the_gamma n (s, y))) (h_pairs B ++ triples n [(s, y)])) =
    Ok (mk_hessian (fold_left (fun i sy => next_init i (the_gamma n sy)) ((s, y) :: h) (h_init B)) (h_pairs B ++ triples n ((s, y) :: h)))).
  rewrite IH by (intros s' y' I; apply OK; right; exact I). cbn [h_init h_pairs fold_left]. rewrite <- app_assoc. reflexivity.
Qed.
Lemma matrix_of n h B H0 : steps_ok n h -> h_pairs B = [] -> starts n (fold_left (fun i sy => next_init i (the_gamma n sy)) h (h_init B)) H0 ->
  exists B', upd_all h B = Ok B' /\ forall x, length x = n -> exists q, h_apply B' x = Ok q /\ product_with n (inverse_hessian n H0 h) x q.
Proof.
  intros OK P HS. eexists. split; [apply (updates_ok n h OK)|]. intros x Lx. rewrite h_apply_two_loop. cbn [h_init h_pairs]. rewrite P.
  apply (two_loop_matrix n _ H0 h HS OK x Lx).
Qed.
(** ** the starting matrices *)
Lemma keep_init i h n : (forall g, next_init i g = i) -> fold_left (fun i sy => next_init i (the_gamma n sy)) h i = i.
Proof. intros K. induction h as [|sy h IH]; [reflexivity|]. cbn [fold_left]. rewrite K. exact IH. Qed.
Lemma scaled_mv n c x q : length q = n -> (forall i, i < n -> nth i q 0%Qc = (c * nth i x 0)%Qc) -> product_with n (scaled_identity c) x q.
Proof.
  intros L E. split; [exact L|]. intros i Hi. rewrite E by exact Hi. unfold scaled_identity.
  rewrite (Sigma_ext n _ (fun j => identity i j * (c * nth j x 0))%Qc) by (intros; ring). rewrite identity_l by exact Hi. reflexivity.
Qed.
Lemma starts_identity n : starts n Unscaled (scaled_identity 1%Qc).
Proof. intros x Lx. exists x. split; [reflexivity|]. apply scaled_mv; [exact Lx|]. intros. ring. Qed.
Lemma gamma_scale n s y : dot n y s <> 0%Qc -> dot n y y <> 0%Qc /\ the_gamma n (s, y) <> 0%Qc /\ (1 / the_gamma n (s, y) = step_scale n (s, y))%Qc.
Proof.
  intros NZ. assert (Y : dot n y y <> 0%Qc).
  { intros E. apply NZ. unfold dot. rewrite (Sigma_ext n _ (fun _ => 0)%Qc); [apply LinRespProofs.Sigma_0|]. intros i Hi.
    assert (Z : (nth i y 0 * nth i y 0 = 0)%Qc).
    { apply (Sigma_zero n (fun x => nth x y 0 * nth x y 0)%Qc); [|exact E|exact Hi]. intros j _. unfold Qcle. cbn [this Qcmult Q2Qc]. rewrite !Qred_correct. nra. }
    apply Qcmult_integral in Z. destruct Z as [Z|Z]; rewrite Z; ring. }
  unfold the_gamma, step_scale. cbn [fst snd]. split; [exact Y|]. split.
  - intros E. apply Qcmult_integral in E. destruct E as [E|E]; [contradiction|]. apply Q_apart_0_1. assert (F : (dot n y s * (1 / dot n y s) = 0)%Qc) by (rewrite E; ring). rewrite Qcmult_div_r in F by exact NZ. symmetry in F. apply (f_equal this) in F. cbn in F. discriminate F.
  - field. split; assumption.
Qed.
Lemma scal_ok n c x : length x = n -> product_with n (scaled_identity c) x (v_scal c x).
Proof. intros L. apply scaled_mv; [rewrite v_scal_length; exact L|]. intros i Hi. apply v_scal_nth. lia. Qed.
Lemma starts_scaled n i g : i = UpdatedScaled g \/ i = StaticScaled (Some g) -> g <> 0%Qc -> starts n i (scaled_identity (1 / g)%Qc).
Proof.
  intros E NZ x Lx. exists (v_scal (1 / g)%Qc x). split; [|apply scal_ok; exact Lx].
  destruct E as [-> | ->]; cbn [apply_H0]; unfold fdiv; destruct (Qc_eq_dec g 0) as [e|_]; try contradiction; reflexivity.
Qed.
Lemma starts_updated n h : steps_ok n h -> starts n (fold_left (fun i sy => next_init i (the_gamma n sy)) h (UpdatedScaled 1%Qc)) (scaled_identity (last_scale n h)).
Proof.
  unfold last_scale. destruct h as [|[s y] h] using rev_ind; intros OK.
  - cbn. pose proof (starts_scaled n (UpdatedScaled 1%Qc) 1%Qc (or_introl eq_refl)) as X. assert (E : (1 / 1 = 1)%Qc) by (apply Qc_is_canon; reflexivity). rewrite E in X. apply X. intros D. apply (f_equal this) in D. discriminate D.
  - rewrite rev_app_distr, fold_left_app. cbn [rev app fold_left first_scale].
    destruct (gamma_scale n s y) as (_ & NZ & E); [apply (OK s y); apply in_or_app; right; left; reflexivity|]. rewrite <- E.
    assert (U : exists g, fold_left (fun i sy => next_init i (the_gamma n sy)) h (UpdatedScaled 1%Qc) = UpdatedScaled g).
    { clear. generalize 1%Qc. induction h as [|sy h IH]; intros g; [exists g; reflexivity|]. cbn [fold_left next_init]. apply IH. }
    destruct U as (g & ->). cbn [next_init]. apply starts_scaled; [left; reflexivity|exact NZ].
Qed.
Lemma starts_static n h : steps_ok n h -> starts n (fold_left (fun i sy => next_init i (the_gamma n sy)) h (StaticScaled None)) (scaled_identity (first_scale n h)).
Proof.
  destruct h as [|[s y] h]; intros OK.
  - intros x Lx. exists x. split; [reflexivity|]. apply scaled_mv; [exact Lx|]. intros. cbn [first_scale]. ring.
  - cbn [fold_left next_init first_scale]. destruct (gamma_scale n s y) as (_ & NZ & E); [apply (OK s y); left; reflexivity|]. rewrite <- E.
    rewrite keep_init by reflexivity. apply starts_scaled; [right; reflexivity|exact NZ].
Qed.
Lemma diagonal_ok D : (forall d, In d D -> d <> 0%Qc) -> diagonal_hessian D = Ok (mk_hessian (Diagonal (map (fun d => 1 / d)%Qc D)) []).
Proof.
  intros NZ. unfold diagonal_hessian. rewrite (mapM_ok _ (fun d => 1 / d)%Qc); [reflexivity|]. intros d Hd. unfold fdiv. destruct (Qc_eq_dec d 0) as [e|_]; [exfalso; exact (NZ d Hd e)|reflexivity].
Qed.
Lemma diag_loop inv : forall k x, k <= length inv -> length x = length inv ->
  exists q, foldM (seq 0 k) (fun x i => do u <- at_ x i; do d <- at_ inv i; put x i (u * d)%Qc) x = Ok q /\ length q = length inv /\
    forall i, nth i q 0%Qc = if i <? k then (nth i x 0 * nth i inv 0)%Qc else nth i x 0%Qc.
Proof.
  induction k as [|k IH]; intros x Hk Lx; [exists x; repeat split; auto|].
  destruct (IH x) as (q & E & Lq & K); [lia|exact Lx|]. rewrite seq_S, foldM_app, E. cbn [bind Nat.add foldM].
  rewrite (at_ok q k 0%Qc) by lia. cbn [bind]. rewrite (at_ok inv k 0%Qc) by lia. cbn [bind]. rewrite put_ok by lia. cbn [bind].
  eexists. split; [reflexivity|]. split; [rewrite upd_length; exact Lq|]. intros i. rewrite upd_nth by lia. rewrite !K.
  destruct (Nat.eqb_spec i k) as [->|ne]. { rewrite Nat.ltb_irrefl. destruct (Nat.ltb_spec k (S k)); [reflexivity|lia]. }
  destruct (Nat.ltb_spec i k), (Nat.ltb_spec i (S k)); try lia; reflexivity.
Qed.
Lemma starts_diagonal n inv : length inv = n -> starts n (Diagonal inv) (diagonal inv).
Proof.
  intros L x Lx. destruct (diag_loop inv (length inv) x) as (q & E & Lq & K); [lia|lia|]. exists q. split; [exact E|]. split; [lia|].
  intros i Hi. rewrite K. destruct (Nat.ltb_spec i (length inv)); [|lia]. unfold diagonal.
  rewrite (Sigma_ext n _ (fun j => identity i j * (nth i inv 0 * nth j x 0))%Qc) by (intros j _; unfold identity; destruct (i =? j); ring). rewrite identity_l by exact Hi. ring.
Qed.

(** ** the update *)
Lemma product_ext n H H' x q : (forall i j, i < n -> j < n -> H i j = H' i j) -> product_with n H x q -> product_with n H' x q.
Proof. intros E (L & K). split; [exact L|]. intros i Hi. rewrite K by exact Hi. apply Sigma_ext. intros j Hj. rewrite E by assumption. reflexivity. Qed.
Lemma secant n H s y q : length s = n -> dot n y s <> 0%Qc -> product_with n (updated n H (s, y)) y q -> q = s.
Proof.
  intros Ls NZ (L & K). apply nth_ext with 0%Qc 0%Qc; [congruence|]. intros i Hi. rewrite K by lia.
  pose proof (updated_mv n H s y (fun k => nth k y 0%Qc) i ltac:(lia)) as U. cbv zeta in U. unfold mvf at 1 in U. rewrite U. clear U.
  assert (A : (1 / dot n y s * Sigma n (fun k => nth k s 0 * nth k y 0) = 1)%Qc).
  { rewrite (Sigma_ext n _ (fun k => nth k y 0 * nth k s 0)%Qc) by (intros; ring). change (1 / dot n y s * dot n y s = 1)%Qc. field. exact NZ. }
  rewrite A.
  assert (W : forall k, mvf n H (fun k => nth k y 0 - 1 * nth k y 0)%Qc k = 0%Qc).
  { intros k. unfold mvf. rewrite (Sigma_ext n _ (fun _ => 0)%Qc) by (intros; ring). apply LinRespProofs.Sigma_0. }
  rewrite W. rewrite (Sigma_ext n (fun k => nth k y 0 * mvf n H (fun k => nth k y 0 - 1 * nth k y 0) k)%Qc (fun _ => 0)%Qc) by (intros; rewrite W; ring). rewrite LinRespProofs.Sigma_0. ring.
Qed.
Lemma updated_sym n H sy : symmetric2 n H -> symmetric2 n (updated n H sy).
Proof.
  intros HS i j Hi Hj. unfold updated. cbv zeta. f_equal; [|ring]. rewrite Sigma_swap. apply Sigma_ext. intros k Hk. apply Sigma_ext. intros l Hl.
  rewrite (HS l k) by assumption. unfold identity. rewrite (Nat.eqb_sym l i), (Nat.eqb_sym j k). rewrite (Nat.eqb_sym i l), (Nat.eqb_sym k j). ring.
Qed.
Lemma inverse_hessian_sym n H0 h : symmetric2 n H0 -> symmetric2 n (inverse_hessian n H0 h).
Proof. unfold inverse_hessian. revert H0. induction h as [|sy h IH]; intros H0 HS; [exact HS|]. cbn [fold_left]. apply IH, updated_sym, HS. Qed.
Lemma updated_expectation n H s y x : length s = n -> length y = n -> length x = n ->
  let r := (1 / dot n y s)%Qc in
  expectation n (updated n H (s, y)) x = (expectation n H (v_axpy (- (r * dot n s x)) y x) + r * (dot n s x * dot n s x))%Qc.
Proof.
  intros Ls Ly Lx r. unfold expectation. set (a := (r * dot n s x)%Qc).
  set (w := mvf n H (fun k => nth k x 0 - a * nth k y 0)%Qc).
  rewrite (Sigma_ext n (fun i => nth i x 0 * matvec n (updated n H (s, y)) x i)%Qc (fun i => nth i x 0 * w i + (a - r * Sigma n (fun k => nth k y 0 * w k)) * (nth i s 0 * nth i x 0))%Qc).
  2:{ intros i Hi. pose proof (updated_mv n H s y (fun k => nth k x 0%Qc) i Hi) as U. cbv zeta beta in U. fold r in U. change (Sigma n (fun k => nth k s 0 * nth k x 0)%Qc) with (dot n s x) in U. fold a in U. fold w in U. unfold matvec. unfold mvf at 1 in U. rewrite U. ring. }
  rewrite Sigma_plus, Sigma_scale. change (Sigma n (fun i => nth i s 0 * nth i x 0)%Qc) with (dot n s x).
  rewrite (Sigma_ext n (fun i => nth i (v_axpy (- a) y x) 0 * matvec n H (v_axpy (- a) y x) i)%Qc (fun i => nth i x 0 * w i - a * (nth i y 0 * w i))%Qc).
  2:{ intros i Hi. rewrite v_axpy_nth by lia. assert (E : matvec n H (v_axpy (- a) y x) i = w i) by (apply Sigma_ext; intros j Hj; rewrite v_axpy_nth by lia; f_equal; ring). rewrite E. ring. }
  rewrite Sigma_minus, Sigma_scale. unfold a. ring.
Qed.
Lemma all_zero_dec (x : list Qc) : {nonzero x} + {forall i, i < length x -> nth i x 0%Qc = 0%Qc}.
Proof.
  induction x as [|a x [Z|Z]].
  - right. cbn. lia.
  - left. destruct Z as (i & Hi & Z). exists (S i). cbn. split; [lia|exact Z].
  - destruct (Qc_eq_dec a 0) as [->|na]; [right|left; exists 0; cbn; split; [lia|exact na]]. intros [|i] Hi; [reflexivity|]. apply Z. cbn in Hi. lia.
Qed.
Lemma qpos a : (0 < a)%Qc -> (0 < 1 / a)%Qc.
Proof. intros H. unfold Qclt in *. unfold Qcdiv, Qcinv. cbn [this Qcmult Q2Qc] in *. rewrite !Qred_correct in *. rewrite Qmult_1_l. apply Qinv_lt_0_compat. exact H. Qed.
Lemma sq_pos a : a <> 0%Qc -> (0 < a * a)%Qc.
Proof.
  intros H. destruct (Qc_dec a 0) as [[L|L]|E]; [| |contradiction]; unfold Qclt in *; cbn [this Qcmult Q2Qc] in *; rewrite ?Qred_correct in *; nra.
Qed.
Lemma qmul_pos a b : (0 < a)%Qc -> (0 < b)%Qc -> (0 < a * b)%Qc.
Proof. unfold Qclt. cbn [this Qcmult Q2Qc]. rewrite ?Qred_correct. intros. nra. Qed.
Lemma qadd_pos a b : (0 < a)%Qc -> (0 <= b)%Qc -> (0 < a + b)%Qc.
Proof. unfold Qclt, Qcle. cbn [this Qcplus Q2Qc]. rewrite ?Qred_correct. intros. lra. Qed.
Lemma sq_nonneg a : (0 <= a * a)%Qc.
Proof. unfold Qcle. cbn [this Qcmult Q2Qc]. rewrite ?Qred_correct. nra. Qed.
Lemma qmul_nonneg a b : (0 < a)%Qc -> (0 <= b)%Qc -> (0 <= a * b)%Qc.
Proof. unfold Qclt, Qcle. cbn [this Qcmult Q2Qc]. rewrite ?Qred_correct. intros. nra. Qed.
Lemma updated_positive n H s y : length s = n -> length y = n -> (0 < dot n y s)%Qc -> positive n H -> positive n (updated n H (s, y)).
Proof.
  intros Ls Ly C P x Lx Nx. rewrite updated_expectation by assumption. set (r := (1 / dot n y s)%Qc). set (a := (r * dot n s x)%Qc). pose proof (qpos _ C) as Hr. fold r in Hr.
  destruct (all_zero_dec (v_axpy (- a) y x)) as [Z|Z].
  - apply qadd_pos; [apply P; [rewrite v_axpy_length; exact Lx|exact Z]|]. apply qmul_nonneg; [exact Hr|apply sq_nonneg].
  - rewrite v_axpy_length in Z. assert (E : expectation n H (v_axpy (- a) y x) = 0%Qc).
    { unfold expectation. rewrite (Sigma_ext n _ (fun _ => 0)%Qc); [apply LinRespProofs.Sigma_0|]. intros i Hi. rewrite Z by lia. ring. }
    rewrite E, Qcplus_0_l. apply qmul_pos; [exact Hr|]. apply sq_pos. intros D. destruct Nx as (i & Hi & Nx). apply Nx. pose proof (Z i Hi) as Zi. rewrite v_axpy_nth in Zi by exact Hi. unfold a in Zi. rewrite D in Zi. etransitivity; [|exact Zi]. ring.
Qed.
Lemma inverse_hessian_positive n h : steps_ok n h -> positive_curvature n h -> forall H0, positive n H0 -> positive n (inverse_hessian n H0 h).
Proof.
  unfold inverse_hessian. induction h as [|[s y] h IH]; intros OK C H0 P; [exact P|]. cbn [fold_left]. apply IH.
  - intros s' y' I; apply OK; right; exact I.
  - intros s' y' I; apply C; right; exact I.
  - destruct (OK s y) as (Ls & Ly & _); [left; reflexivity|]. apply updated_positive; try assumption. apply C. left. reflexivity.
Qed.
Lemma product_expectation n H x q : product_with n H x q -> dot n x q = expectation n H x.
Proof. intros (L & K). apply Sigma_ext. intros i Hi. rewrite K by exact Hi. reflexivity. Qed.
Lemma diagonal_positive n d : length d = n -> (forall i, i < n -> (0 < nth i d 0)%Qc) -> positive n (diagonal d).
Proof.
  intros L P x Lx (i & Hi & Nx). assert (E : expectation n (diagonal d) x = Sigma n (fun i => nth i d 0 * (nth i x 0 * nth i x 0))%Qc).
  { apply Sigma_ext. intros j Hj. unfold matvec. rewrite (Sigma_ext n _ (fun l => identity j l * (nth j d 0 * nth l x 0))%Qc) by (intros l _; unfold diagonal, identity; destruct (j =? l); ring). rewrite identity_l by exact Hj. ring. }
  rewrite E. assert (NN : forall j, j < n -> (0 <= nth j d 0 * (nth j x 0 * nth j x 0))%Qc) by (intros j Hj; apply qmul_nonneg; [apply P; exact Hj|apply sq_nonneg]).
  destruct (Qc_dec 0 (Sigma n (fun i => nth i d 0 * (nth i x 0 * nth i x 0))%Qc)) as [[l|l]|e].
  - exact l.
  - exfalso. apply (Qclt_not_le _ _ l). apply Sigma_nonneg. exact NN.
  - exfalso. rewrite Lx in Hi. pose proof (Sigma_zero n _ NN (eq_sym e) i Hi) as Z. cbv beta in Z. apply Qcmult_integral in Z. destruct Z as [Z|Z].
    + apply (Qclt_not_eq _ _ (P i Hi)). symmetry. exact Z.
    + apply Qcmult_integral in Z. tauto.
Qed.
Lemma nth_repeat_in (c : Qc) n i : i < n -> nth i (repeat c n) 0%Qc = c.
Proof. revert i. induction n as [|n IH]; intros [|i] H; cbn; try lia; [reflexivity|]. apply IH. lia. Qed.
Lemma scaled_positive n c : (0 < c)%Qc -> positive n (scaled_identity c).
Proof.
  intros Hc x Lx Nx. pose proof (diagonal_positive n (repeat c n) (repeat_length c n)) as P.
  assert (E : expectation n (scaled_identity c) x = expectation n (diagonal (repeat c n)) x).
  { apply Sigma_ext. intros i Hi. f_equal. apply Sigma_ext. intros j Hj. f_equal. unfold scaled_identity, identity, diagonal. destruct (i =? j); [|ring]. rewrite (nth_repeat_in c n i Hi). ring. }
  rewrite E. apply P; [|exact Lx|exact Nx]. intros i Hi. rewrite (nth_repeat_in c n i Hi). exact Hc.
Qed.
Lemma step_scale_positive n s y : (0 < dot n y s)%Qc -> (0 < step_scale n (s, y))%Qc.
Proof.
  intros C. destruct (gamma_scale n s y) as (Y & _ & _); [intros e; rewrite e in C; exact (Qclt_not_eq _ _ C eq_refl)|].
  unfold step_scale. cbn [fst snd]. assert (E : (dot n y s / dot n y y = dot n y s * (1 / dot n y y))%Qc) by (field; exact Y). rewrite E. apply qmul_pos; [exact C|]. apply qpos.
  destruct (Qc_dec 0 (dot n y y)) as [[l|l]|e]; [exact l| |congruence]. exfalso. apply (Qclt_not_le _ _ l). apply Sigma_nonneg. intros. apply sq_nonneg.
Qed.
