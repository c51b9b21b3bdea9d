(** The ranks of the distributed solver never wait for each other. *)
From Coq Require Import QArith Qcanon.
From Verif Require Import Base SD Nondet SlaterCondon Ham Asci Mem Sums Sparse Spmv Dist Collective CollectiveProofs Diis Davidson DavProofs DavProofs2 DavProofs7 DavProofs8.
Local Open Scope nat_scope.

Definition nh {A} (m : res A) : Prop := m <> Err Hang.
Lemma nh_ok {A} (a : A) : nh (Ok a). Proof. discriminate. Qed.
Lemma nh_bind {A B} (m : res A) (f : A -> res B) : nh m -> (forall a, nh (f a)) -> nh (bind m f).
Proof. intros Hm Hf. destruct m as [a|e]; cbn; [apply Hf|]. intros E. apply Hm. injection E as ->. reflexivity. Qed.
Lemma nh_mapM {A B} (f : A -> res B) l : (forall a, nh (f a)) -> nh (mapM f l).
Proof. intros H. induction l as [|x l IH]; cbn [mapM]; [apply nh_ok|]. apply nh_bind; [apply H|]. intros a. apply nh_bind; [exact IH|]. intros b. apply nh_ok. Qed.
Lemma nh_sumM {A} (f : A -> res Qc) l : (forall a, nh (f a)) -> forall acc, nh (sumM acc l f).
Proof. intros H. induction l as [|x l IH]; intros acc; cbn [sumM]; [apply nh_ok|]. apply nh_bind; [apply H|]. intros a. apply IH. Qed.
Lemma nh_at {A} (l : list A) i : nh (at_ l i). Proof. unfold at_. destruct (nth_error l i); discriminate. Qed.
Lemma nh_put {A} (x : A) : forall l i, nh (put l i x).
Proof. induction l as [|y l IH]; intros [|i]; cbn [put]; try discriminate. apply nh_bind; [apply IH|]. intros; apply nh_ok. Qed.
Lemma nh_fdiv x y : nh (fdiv x y). Proof. unfold fdiv. destruct (Qc_eq_dec y 0); discriminate. Qed.
Lemma nh_slice {A} o n (l : list A) : nh (slice o n l). Proof. unfold slice. destruct (o + n <=? length l); discriminate. Qed.
Lemma nh_slice_ {A} (l : list A) a b : nh (slice_ l a b). Proof. unfold slice_. destruct (_ && _); discriminate. Qed.
Lemma nh_dot n x y : nh (dot_ n x y).
Proof. unfold dot_. apply nh_sumM. intros m. apply nh_bind; [apply nh_at|]. intros. apply nh_bind; [apply nh_at|]. intros. apply nh_ok. Qed.
Lemma nh_gemm_t N K V x : nh (gemm_t N K V x).
Proof. unfold gemm_t. destruct (N =? 0); [discriminate|]. apply nh_mapM. intros. apply nh_bind; [apply nh_at|]. intros. apply nh_dot. Qed.
Lemma nh_gemm_n N K a V c b y : nh (gemm_n N K a V c b y).
Proof.
  unfold gemm_n. destruct (N =? 0); [discriminate|]. apply nh_mapM. intros. apply nh_bind; [apply nh_sumM; intros; repeat (apply nh_bind; [apply nh_at|intros]); apply nh_ok|].
  intros. apply nh_bind; [apply nh_at|]. intros. apply nh_ok.
Qed.
Lemma nh_scal N a x : nh (scal N a x). Proof. unfold scal. apply nh_mapM. intros. apply nh_bind; [apply nh_at|]. intros. apply nh_ok. Qed.
Lemma nh_gemm_tn N K V AV : nh (gemm_tn N K V AV).
Proof. unfold gemm_tn. apply nh_bind; [apply nh_mapM; intros; apply nh_bind; [apply nh_at|]; intros; apply nh_gemm_t|]. intros. apply nh_ok. Qed.
Lemma nh_precondition N D l R : nh (precondition N D l R).
Proof. unfold precondition. apply nh_mapM. intros. repeat (apply nh_bind; [apply nh_at|intros]). apply nh_fdiv. Qed.
Lemma nh_ranks {A} Ns (f : nat -> nat -> res A) : (forall r n, nh (f r n)) -> nh (ranks Ns f).
Proof. intros H. unfold ranks. apply nh_mapM. intros. apply H. Qed.
Lemma nh_on_rank r V : nh (on_rank r V). Proof. unfold on_rank. apply nh_mapM. intros. apply nh_at. Qed.
Lemma nh_MPI_Allreduce {A} (op : list A -> A) d o n s r : nh (MPI_Allreduce op d o n s r).
Proof. unfold MPI_Allreduce. repeat (apply nh_bind; [apply nh_mapM; intros; apply nh_slice|intros]). apply nh_ok. Qed.
Lemma nh_allreduce {A} (op : list A -> A) d n s r : nh (allreduce op d n s r).
Proof.
  unfold allreduce, allreduce_chunked. generalize (Z.to_nat INT_MAX). intros im. destruct (_ && _); [discriminate|]. apply nh_bind.
  - assert (G : forall l acc, nh acc -> nh (fold_left (fun r i => do recv <- r; MPI_Allreduce op d (i * im) im s recv) l acc)).
    { induction l as [|i l IH]; intros acc H; [exact H|]. cbn [fold_left]. apply IH. apply nh_bind; [exact H|]. intros. apply nh_MPI_Allreduce. }
    apply G. apply nh_ok.
  - intros. destruct (n mod im =? 0); [apply nh_ok|apply nh_MPI_Allreduce].
Qed.
Lemma nh_bcast {A} o n r (b : list (list A)) : nh (MPI_Bcast o n r b).
Proof. unfold MPI_Bcast. apply nh_bind; [apply nh_at|]. intros. apply nh_bind; [apply nh_slice|]. intros. apply nh_bind; [apply nh_mapM; intros; apply nh_slice|]. intros. apply nh_ok. Qed.
Lemma nh_allreduce_one {A} (op : list A -> A) d l : nh (allreduce_one op d l).
Proof. pose proof (allreduce_one_ok op d l) as E. unfold nh. intros H. pose proof (eq_trans (eq_sym E) H) as X. discriminate X. Qed.
Local Opaque allreduce_one allreduce INT_MAX.
Ltac nhs := repeat match goal with
  | |- nh (bind _ _) => apply nh_bind; [|intros]
  | |- nh (Ok _) => apply nh_ok
  | |- nh (at_ _ _) => apply nh_at
  | |- nh (put _ _ _) => apply nh_put
  | |- nh (fdiv _ _) => apply nh_fdiv
  | |- nh (slice_ _ _ _) => apply nh_slice_
  | |- nh (dot_ _ _ _) => apply nh_dot
  | |- nh (gemm_t _ _ _ _) => apply nh_gemm_t
  | |- nh (gemm_n _ _ _ _ _ _ _) => apply nh_gemm_n
  | |- nh (scal _ _ _) => apply nh_scal
  | |- nh (gemm_tn _ _ _ _) => apply nh_gemm_tn
  | |- nh (precondition _ _ _ _) => apply nh_precondition
  | |- nh (on_rank _ _) => apply nh_on_rank
  | |- nh (allreduce_one _ _ _) => apply nh_allreduce_one
  | |- nh (allreduce _ _ _ _ _) => apply nh_allreduce
  | |- nh (MPI_Bcast _ _ _ _) => apply nh_bcast
  | |- nh (ranks _ _) => apply nh_ranks; intros
  | |- nh (mapM _ _) => apply nh_mapM; intros
  end.
Lemma nh_pgs root Ns K V x : nh (p_gram_schmidt root Ns K V x).
Proof. unfold p_gram_schmidt. nhs. Qed.
Lemma nh_prr syev Ns K X AX W : (forall k M, nh (syev k M)) -> nh (p_rayleigh_ritz syev Ns K X AX W).
Proof. intros H. unfold p_rayleigh_ritz. nhs. apply H. Qed.

Lemma hang_bind {A B} (m : nd A) (f : A -> nd B) : ~ m (Err Hang) -> (forall a, m (Ok a) -> ~ f a (Err Hang)) -> ~ nbind m f (Err Hang).
Proof. intros Hm Hf [(e & He & E)|(a & Ha & H)]; [injection E as <-; exact (Hm He)|exact (Hf a Ha H)]. Qed.
Lemma hang_det {A} (m : res A) : nh m -> ~ det m (Err Hang).
Proof. intros H E. apply H. symmetry. exact E. Qed.
Lemma const_decisions (g : Qc -> bool) v (l : list Qc) : forallb (fun b => b) (map g (map (fun _ => v) l)) = false -> existsb (fun b => b) (map g (map (fun _ => v) l)) = false.
Proof.
  intros F. assert (G : g v = false).
  { destruct (g v) eqn:G; [|reflexivity]. exfalso. induction l as [|y l IH]; [discriminate|]. cbn [map forallb] in F. rewrite G in F. apply IH. exact F. }
  clear F. induction l as [|y l IH]; [reflexivity|]. cbn [map existsb]. rewrite G. exact IH.
Qed.
Lemma p_loop_no_hang root syev Ns op D tol max_m : (forall k M, nh (syev k M)) -> (forall v av, ~ op v av (Err Hang)) ->
  forall rem i V AV LAM X, ~ p_davidson_loop root syev Ns op D tol max_m rem i V AV LAM X (Err Hang).
Proof.
  intros HS HO. induction rem as [|rem IH]; intros i V AV LAM X; cbn [p_davidson_loop]; [intros E; discriminate E|].
  apply hang_bind; [apply hang_det; nhs|intros v _]. apply hang_bind; [apply hang_det; nhs|intros av _].
  apply hang_bind; [apply HO|intros av' _]. apply hang_bind; [apply hang_det; nhs|intros AV' _].
  apply hang_bind; [apply hang_det; apply nh_prr; exact HS|intros [LAM' C] _].
  apply hang_bind; [apply hang_det; nhs|intros lam _]. apply hang_bind; [apply hang_det; nhs|intros X' _].
  apply hang_bind; [apply hang_det; nhs|intros R _]. apply hang_bind; [apply hang_det; nhs|intros dots _].
  apply hang_bind; [apply hang_det; nhs|intros dots' Hd].
  assert (Ed : dots' = map (fun _ => MPI_SUM dots) dots) by (pose proof (eq_trans Hd (allreduce_one_ok MPI_SUM 0%Qc dots)) as X0; injection X0 as ->; reflexivity).
  clear Hd. subst dots'. destruct (forallb _ _) eqn:F; [intros E; discriminate E|]. rewrite (const_decisions _ _ _ F).
  apply hang_bind; [apply hang_det; nhs|intros R1 _]. apply hang_bind; [apply hang_det; apply nh_pgs|intros R2 _].
  apply hang_bind; [apply hang_det; nhs|intros V' _]. apply IH.
Qed.
Lemma p_davidson_no_hang root syev Ns max_m op D tol X : (forall k M, syev k M <> Err Hang) -> (forall v av, ~ op v av (Err Hang)) ->
  ~ p_davidson root syev Ns max_m op D tol X (Err Hang).
Proof.
  intros HS HO. unfold p_davidson. apply hang_bind; [apply hang_det; nhs|intros x0 _]. apply hang_bind; [apply hang_det; nhs|intros V _].
  apply hang_bind; [apply HO|intros av _]. apply hang_bind; [apply hang_det; nhs|intros AV _].
  apply hang_bind; [apply hang_det; destruct (existsb _ Ns); discriminate|intros u _]. apply hang_bind; [apply hang_det; nhs|intros V1 _].
  apply hang_bind; [apply hang_det; apply nh_pgs|intros v1 _]. apply hang_bind; [apply hang_det; nhs|intros V2 _].
  apply p_loop_no_hang; assumption.
Qed.
