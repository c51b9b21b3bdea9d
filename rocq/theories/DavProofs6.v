(** The distributed solver computes what the serial one does on the joined vectors. *)
From Coq Require Import QArith Qcanon.
From Verif Require Import Base SD Nondet SlaterCondon Ham HamProofs Asci AsciSort Mem MemProofs Sums SparseSpec CsrView Sparse Spmv Dist Collective CollectiveProofs Diis
  DenseSpec DenseProofs DiisSpec DiisProofs DiisProofs2 RotProofs LinRespProofs ExpandProofs FockMatProofs PSpmvProofs2 Davidson DavSpec DavProofs DavProofs2 DavProofs3 DavProofs4.
Local Open Scope nat_scope.

Fixpoint start (Ns : list nat) (r : nat) : nat := match r, Ns with S r, N :: Ns => N + start Ns r | _, _ => 0 end.

Lemma shaped_cons N Ns x xs : shaped (N :: Ns) (x :: xs) <-> length x = N /\ shaped Ns xs.
Proof.
  split.
  - intros [L F]. split; [apply (F 0); cbn; lia|]. split; [cbn in L; lia|]. intros r Hr. apply (F (S r)). cbn. lia.
  - intros [E [L F]]. split; [cbn; lia|]. intros [|r] Hr; [exact E|]. apply F. cbn in Hr. lia.
Qed.
Lemma glue_length Ns : forall x, shaped Ns x -> length (concat x) = total Ns.
Proof.
  induction Ns as [|N Ns IH]; intros x Hx.
  - destruct Hx as [L _]. destruct x; [reflexivity|discriminate].
  - destruct x as [|x xs]; [destruct Hx as [L _]; discriminate|]. apply shaped_cons in Hx. destruct Hx as [E Hx].
    cbn. rewrite app_length, (IH xs Hx), E. reflexivity.
Qed.
Lemma glue_nth Ns : forall x r j, shaped Ns x -> r < length Ns -> j < nth r Ns 0 -> nth (start Ns r + j) (concat x) 0%Qc = nth j (nth r x []) 0%Qc.
Proof.
  induction Ns as [|N Ns IH]; intros x r j Hx Hr Hj; [cbn in Hr; lia|].
  destruct x as [|x xs]; [destruct Hx as [L _]; discriminate|]. apply shaped_cons in Hx. destruct Hx as [E Hx].
  destruct r as [|r]; cbn [start concat nth] in *.
  - apply app_nth1. lia.
  - rewrite app_nth2 by lia. replace (N + start Ns r + j - length x) with (start Ns r + j) by lia. apply IH; [exact Hx|cbn in Hr; lia|exact Hj].
Qed.
Lemma locate Ns : forall i, i < total Ns -> exists r j, r < length Ns /\ j < nth r Ns 0 /\ i = start Ns r + j.
Proof.
  induction Ns as [|N Ns IH]; intros i Hi; [cbn in Hi; lia|].
  destruct (Nat.lt_ge_cases i N) as [L|G].
  - exists 0, i. cbn. repeat split; lia.
  - destruct (IH (i - N)) as (r & j & Hr & Hj & E); [unfold total in *; cbn [list_sum fold_right] in Hi; unfold list_sum; lia|]. exists (S r), j. cbn. repeat split; [lia|exact Hj|lia].
Qed.
Lemma start_lt Ns : forall r j, r < length Ns -> j < nth r Ns 0 -> start Ns r + j < total Ns.
Proof.
  induction Ns as [|N Ns IH]; intros r j Hr Hj; [cbn in Hr; lia|]. unfold total in *. destruct r as [|r]; cbn [start nth length list_sum fold_right] in *; [lia|].
  specialize (IH r j ltac:(lia) Hj). unfold list_sum in IH. lia.
Qed.
(* a vector with the same local elements is the joined vector *)
Lemma glue_ext Ns x y : shaped Ns x -> length y = total Ns ->
  (forall r j, r < length Ns -> j < nth r Ns 0 -> nth (start Ns r + j) y 0%Qc = nth j (nth r x []) 0%Qc) -> y = concat x.
Proof.
  intros Hx Ly H. apply (nth_ext' _ _ 0%Qc); [rewrite (glue_length _ _ Hx); exact Ly|].
  intros i Hi. rewrite Ly in Hi. destruct (locate Ns i Hi) as (r & j & Hr & Hj & ->). rewrite H by assumption.
  symmetry. apply glue_nth; assumption.
Qed.
Lemma Sigma_S_first' n f : Sigma (S n) f = (f 0%nat + Sigma n (fun i => f (S i)))%Qc.
Proof. apply Sigma_S_first. Qed.
Lemma Sigma_glue Ns : forall f, Sigma (total Ns) f = Sigma (length Ns) (fun r => Sigma (nth r Ns 0) (fun j => f (start Ns r + j))).
Proof.
  induction Ns as [|N Ns IH]; intros f; [reflexivity|]. cbn [total list_sum fold_right length].
  change (fold_right Nat.add 0 Ns) with (total Ns). rewrite Sigma_split, (Sigma_S_first (length Ns)). cbn [nth start].
  apply f_equal2; [reflexivity|]. rewrite (Sigma_ext (total Ns) _ (fun i => f (N + i))) by (intros; f_equal; lia).
  rewrite (IH (fun i => f (N + i))). apply Sigma_ext. intros r Hr. apply Sigma_ext. intros j Hj. f_equal. lia.
Qed.
Lemma dot_glue Ns x y : shaped Ns x -> shaped Ns y ->
  dot (total Ns) (concat x) (concat y) = Sigma (length Ns) (fun r => dot (nth r Ns 0) (nth r x []) (nth r y [])).
Proof.
  intros Hx Hy. unfold dot at 1. rewrite Sigma_glue. apply Sigma_ext. intros r Hr. unfold dot. apply Sigma_ext. intros j Hj.
  rewrite !(glue_nth Ns) by assumption. reflexivity.
Qed.

Lemma ranks_inv {A} Ns (f : nat -> nat -> res A) ys d : ranks Ns f = Ok ys -> length ys = length Ns /\ forall r, r < length Ns -> f r (nth r Ns 0) = Ok (nth r ys d).
Proof.
  unfold ranks. intros H. apply mapM_inv in H. destruct H as [L F].
  assert (LC : length (combine (seq 0 (length Ns)) Ns) = length Ns) by (rewrite combine_length, seq_length; lia).
  rewrite LC in *. split; [exact L|]. intros r Hr. specialize (F r (0, 0) d Hr). rewrite combine_nth in F by (rewrite seq_length; reflexivity).
  cbn [fst snd] in F. rewrite seq_nth in F by exact Hr. exact F.
Qed.
Lemma on_rank_inv r V Vr : on_rank r V = Ok Vr -> length Vr = length V /\ forall c, nth c Vr [] = nth r (nth c V []) [].
Proof.
  unfold on_rank. intros H. apply mapM_inv in H. destruct H as [L F]. split; [exact L|]. intros c.
  destruct (Nat.lt_ge_cases c (length V)) as [Hc|Hc].
  - specialize (F c [] [] Hc). apply (at_inv _ _ _ []) in F. destruct F as [_ F]. symmetry. exact F.
  - rewrite (nth_overflow Vr) by (rewrite L; exact Hc). rewrite (nth_overflow V) by exact Hc. destruct r; reflexivity.
Qed.
Lemma sum_fold l : forall a, fold_left Qcplus l a = (a + sum l (fun x => x))%Qc.
Proof. induction l as [|x l IH]; intros a; cbn [fold_left sum]; [ring|]. rewrite IH. ring. Qed.
Lemma mpi_sum_nth (l : list Qc) : MPI_SUM l = Sigma (length l) (fun r => nth r l 0%Qc).
Proof.
  unfold MPI_SUM. rewrite sum_fold. induction l as [|x l IH].
  - cbn. reflexivity.
  - cbn [sum length]. rewrite Sigma_S_first. cbn [nth]. rewrite <- IH. ring.
Qed.
Lemma allreduce_inv K bufs out : (forall r, r < length bufs -> length (nth r bufs []) = K) -> allreduce MPI_SUM 0%Qc K bufs bufs = Ok out ->
  length out = length bufs /\ forall r, r < length bufs -> length (nth r out []) = K /\
    forall c, c < K -> nth c (nth r out []) 0%Qc = Sigma (length bufs) (fun r' => nth c (nth r' bufs []) 0%Qc).
Proof.
  intros HL H. unfold allreduce in H. pose proof int_max_pos.
  destruct (Nat.le_gt_cases (Z.to_nat INT_MAX) K) as [G|L].
  - rewrite allreduce_chunked_refuses in H by lia. discriminate H.
  - assert (Fb : Forall (fun b => K <= length b) bufs).
    { apply Forall_forall. intros b Hb. apply (In_nth _ _ []) in Hb. destruct Hb as (r & Hr & <-). rewrite HL by exact Hr. lia. }
    rewrite allreduce_chunked_ok in H; [|lia|intros _; exact L|exact Fb|exact Fb]. injection H as <-.
    split; [apply map_length|]. intros r Hr.
    rewrite (nth_indep _ _ (reduced MPI_SUM 0%Qc K bufs [])) by (rewrite map_length; exact Hr). rewrite map_nth.
    unfold reduced. rewrite (skipn_all2 (nth r bufs [])) by (rewrite HL by exact Hr; lia). rewrite app_nil_r.
    split; [rewrite map_length, seq_length; reflexivity|]. intros c Hc. rewrite nth_map_seq by exact Hc.
    rewrite mpi_sum_nth, map_length. apply Sigma_ext. intros r' Hr'.
    rewrite (nth_indep (map _ _) _ (nth c [] 0%Qc)) by (rewrite map_length; exact Hr'). rewrite (map_nth (fun b => nth c b 0%Qc)). reflexivity.
Qed.
Lemma bcast_inv n (bufs out : list (list Qc)) : MPI_Bcast 0 n 0 bufs = Ok out -> length out = length bufs /\ n <= length (nth 0 bufs []) /\
  forall r, r < length bufs -> n <= length (nth r out []) /\ forall c, c < n -> nth c (nth r out []) 0%Qc = nth c (nth 0 bufs []) 0%Qc.
Proof.
  unfold MPI_Bcast. intros H. apply bind_inv in H. destruct H as (b & Hb & H). apply bind_inv in H. destruct H as (s & Hs & H).
  apply bind_inv in H. destruct H as (u & Hu & H). injection H as <-. apply (at_inv _ _ _ []) in Hb. destruct Hb as [L0 Hb]. rewrite Hb.
  unfold slice in Hs. destruct (Nat.leb_spec (0 + n) (length b)) as [Ln|]; [|discriminate]. injection Hs as <-. cbn in Ln.
  assert (LF : length (firstn n b) = n) by (rewrite firstn_length; lia).
  split; [apply map_length|]. split; [exact Ln|]. intros r Hr.
  rewrite (nth_indep _ _ (set_range 0 (firstn n b) [])) by (rewrite map_length; exact Hr). rewrite map_nth. cbn [skipn set_range].
  rewrite app_length, LF. split; [lia|]. intros c Hc. rewrite app_nth1 by lia. rewrite nth_firstn by exact Hc. reflexivity.
Qed.
