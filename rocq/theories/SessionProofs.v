(** Proofs for C114. *)
From Coquelicot Require Import Coquelicot.
From Verif Require Import Base Ext Gauss StochModel StochModelSpec StochModelProofs LimitState LimitStateSpec Transf Form Nataf Dist Pipe PipeSpec PipeProofs Sorm Mc McRun Ss SsRun Ls LsRun LsRunProofs DaRun Session SessionSpec.
From Coq Require Import ZArith Lra Lia FunctionalExtensionality.
Open Scope R_scope.

(** ** a computation on a model object that neither reads nor changes more than the registry, Ro and the counter aside *)
Definition ins {A} (f : smodel -> A * smodel) : Prop :=
  forall s s', same_core s s' -> fst (f s') = fst (f s) /\ same_core s (snd (f s)) /\ same_core s' (snd (f s')).
Definition ins3 {A B} (f : smodel -> A * smodel * B) : Prop :=
  forall s s', same_core s s' -> fst (fst (f s')) = fst (fst (f s)) /\ snd (f s') = snd (f s) /\ same_core s (snd (fst (f s))) /\ same_core s' (snd (fst (f s'))).

Lemma core_across s s' t t' : same_core s s' -> same_core s t -> same_core s' t' -> same_core t t'.
Proof. intros H H1 H2. apply (core_trans _ s); [apply core_sym, H1|]. apply (core_trans _ s'); assumption. Qed.

Lemma ins_ret {A} (x : A) : ins (fun s => (x, s)).
Proof. intros s s' H. cbn. auto using core_refl. Qed.
Lemma ins_bind {A B} (f : smodel -> A * smodel) (g : A -> smodel -> B * smodel) : ins f -> (forall x, ins (g x)) -> ins (fun s => let '(x, s) := f s in g x s).
Proof.
  intros Hf Hg s s' H. destruct (Hf s s' H) as (E & C1 & C2). destruct (f s) as [x t]. destruct (f s') as [x' t']. cbn [fst snd] in *. subst x'.
  destruct (Hg x t t' (core_across _ _ _ _ H C1 C2)) as (E' & D1 & D2). split; [exact E'|]. split; eapply core_trans; eassumption.
Qed.
Lemma ins3_ret {A B} (x : A) (y : B) : ins3 (fun s => (x, s, y)).
Proof. intros s s' H. cbn. auto using core_refl. Qed.
Lemma ins3_bind {A B C} (f : smodel -> A * smodel) (g : A -> smodel -> B * smodel * C) : ins f -> (forall x, ins3 (g x)) -> ins3 (fun s => let '(x, s) := f s in g x s).
Proof.
  intros Hf Hg s s' H. destruct (Hf s s' H) as (E & C1 & C2). destruct (f s) as [x t]. destruct (f s') as [x' t']. cbn [fst snd] in *. subst x'.
  destruct (Hg x t t' (core_across _ _ _ _ H C1 C2)) as (E1 & E2 & D1 & D2). split; [exact E1|]. split; [exact E2|]. split; eapply core_trans; eassumption.
Qed.
Lemma ins3_bind3 {A B C D} (f : smodel -> A * smodel * B) (g : A -> B -> smodel -> C * smodel * D) : ins3 f -> (forall x y, ins3 (g x y)) -> ins3 (fun s => let '(x, s, y) := f s in g x y s).
Proof.
  intros Hf Hg s s' H. destruct (Hf s s' H) as (E & E0 & C1 & C2). destruct (f s) as [[x t] y]. destruct (f s') as [[x' t'] y']. cbn [fst snd] in *. subst x' y'.
  destruct (Hg x y t t' (core_across _ _ _ _ H C1 C2)) as (E1 & E2 & D1 & D2). split; [exact E1|]. split; [exact E2|]. split; eapply core_trans; eassumption.
Qed.
Lemma ins_bind3 {A B C} (f : smodel -> A * smodel * B) (g : A -> B -> smodel -> C * smodel) : ins3 f -> (forall x y, ins (g x y)) -> ins (fun s => let '(x, s, y) := f s in g x y s).
Proof.
  intros Hf Hg s s' H. destruct (Hf s s' H) as (E & E0 & C1 & C2). destruct (f s) as [[x t] y]. destruct (f s') as [[x' t'] y']. cbn [fst snd] in *. subst x' y'.
  destruct (Hg x y t t' (core_across _ _ _ _ H C1 C2)) as (E1 & D1 & D2). split; [exact E1|]. split; eapply core_trans; eassumption.
Qed.
(** what is read of the marginals *)
Lemma core_marg_eq s s' : same_core s s' -> sm_marg s' = sm_marg s.
Proof. intros (_ & _ & E & _). exact E. Qed.
Lemma ins_marg {A} (h : list rv -> smodel -> A * smodel) : (forall l, ins (h l)) -> ins (fun s => h (sm_marg s) s).
Proof. intros Hh s s' H. rewrite (core_marg_eq _ _ H). exact (Hh _ s s' H). Qed.
Lemma ins3_marg {A B} (h : list rv -> smodel -> A * smodel * B) : (forall l, ins3 (h l)) -> ins3 (fun s => h (sm_marg s) s).
Proof. intros Hh s s' H. rewrite (core_marg_eq _ _ H). exact (Hh _ s s' H). Qed.
Lemma ins_add {A} (x : A) k : ins (fun s => (x, addCallFunction s k)).
Proof. intros s s' H. cbn [fst snd]. auto using core_add. Qed.
Lemma ins3_add {A B} (x : A) (y : B) k : ins3 (fun s => (x, addCallFunction s k, y)).
Proof. intros s s' H. cbn [fst snd]. auto using core_add. Qed.

Section Runs.
Variables (fmin : (R -> R) -> R -> R) (chol : nat -> mat -> result mat) (svd : nat -> mat -> result (mat * vec)) (inv : nat -> mat -> result mat).
Variable brentq : (R -> option R) -> R -> R -> option R * list R.
Variables fuel lf fl : nat.
Variables (expr : expression) (fo : form_opts) (mo : mc_opts) (evn : option exn).

Definition ro_len (s : smodel) : nat := match sm_Ro s with Some M => length M | None => 0%nat end.

Lemma init_ins ty s s' : same_core s s' ->
  let p := init_run_full fmin chol svd inv ty s in let p' := init_run_full fmin chol svd inv ty s' in
  snd p' = snd p /\ same_core s (fst p) /\ same_core s' (fst p') /\ (forall TA, snd p = Ok TA -> ro_len (fst p') = ro_len (fst p)).
Proof.
  intros H p p'. destruct (init_core fmin chol svd inv ty s s' H) as [E [(E1 & E2 & e & E3)|(M & E1 & E2)]]; fold p p' in E, E1, E2 |- *.
  - split; [exact E|]. rewrite E1, E2. split; [apply core_refl|]. split; [apply core_refl|]. intros TA HT. fold p in E3. congruence.
  - split; [exact E|]. rewrite E1, E2. split; [apply core_Ro|]. split; [apply core_Ro|]. reflexivity.
Qed.
Lemma ins3_init {A B} ty (kerr : exn -> smodel -> A * smodel * B) (kok : nat -> mat * mat -> smodel -> A * smodel * B) :
  (forall e, ins3 (kerr e)) -> (forall k TA, ins3 (kok k TA)) ->
  ins3 (fun s => let '(s, r) := init_run_full fmin chol svd inv ty s in match r with Err e => kerr e s | Ok TA => kok (ro_len s) TA s end).
Proof.
  intros HE HK s s' H. destruct (init_ins ty s s' H) as (E & C1 & C2 & EL). destruct (init_run_full fmin chol svd inv ty s) as [t r]. destruct (init_run_full fmin chol svd inv ty s') as [t' r']. cbn [fst snd] in *. subst r'.
  pose proof (core_across _ _ _ _ H C1 C2) as HT. destruct r as [TA|e].
  - rewrite (EL TA eq_refl). destruct (HK (ro_len t) TA t t' HT) as (E1 & E2 & D1 & D2). split; [exact E1|]. split; [exact E2|]. split; eapply core_trans; eassumption.
  - destruct (HE e t t' HT) as (E1 & E2 & D1 & D2). split; [exact E1|]. split; [exact E2|]. split; eapply core_trans; eassumption.
Qed.

Lemma init_elim ty s s' : same_core s s' -> exists t t', same_core s t /\ same_core s' t' /\ same_core t t' /\
  ((exists e, init_run_full fmin chol svd inv ty s = (t, Err e) /\ init_run_full fmin chol svd inv ty s' = (t', Err e)) \/
   (exists M T A, init_run_full fmin chol svd inv ty s = (t, Ok (T, A)) /\ init_run_full fmin chol svd inv ty s' = (t', Ok (T, A)) /\ sm_Ro t = Some M /\ sm_Ro t' = Some M)).
Proof.
  intros H. pose proof (init_core fmin chol svd inv ty s s' H) as EI. destruct (init_run_full fmin chol svd inv ty s) as [t r]. destruct (init_run_full fmin chol svd inv ty s') as [t' r']. cbn [fst snd] in EI.
  destruct EI as [-> [(-> & -> & e & ->)|(M & -> & ->)]].
  - exists s, s'. repeat (split; [first [apply core_refl|exact H]|]). left. eauto.
  - exists (setModifiedCorrelation s M), (setModifiedCorrelation s' M). split; [apply core_Ro|]. split; [apply core_Ro|].
    split; [exact (core_across _ _ _ _ H (core_Ro _ _) (core_Ro _ _))|]. destruct r as [[T A]|e]; [right; exists M, T, A; auto|left; eauto].
Qed.
Lemma ins3_to {A B} (F : smodel -> A * smodel * B) s s' t t' : ins3 F -> same_core s t -> same_core s' t' -> same_core t t' ->
  fst (fst (F t')) = fst (fst (F t)) /\ snd (F t') = snd (F t) /\ same_core s (snd (fst (F t))) /\ same_core s' (snd (fst (F t'))).
Proof. intros HF C1 C2 HT. destruct (HF t t' HT) as (E1 & E2 & D1 & D2). split; [exact E1|]. split; [exact E2|]. split; eapply core_trans; eassumption. Qed.
Ltac with_init ty :=
  intros s s' H; destruct (init_elim ty s s' H) as (t & t' & C1 & C2 & HT & [(e & -> & ->)|(M & T & A & -> & -> & ER & ER')]);
  [cbn [fst snd]; auto using core_refl|rewrite ER, ER'; match goal with |- fst (fst ?y) = fst (fst ?x) /\ _ => let z := eval pattern t in x in match z with ?F _ => apply (ins3_to F s s' t t'); [|exact C1|exact C2|exact HT] end end; clear].

(** ** evaluations *)
Lemma mc_eval_ins k nrv A us : ins (fun s => mc_eval expr fo k nrv A s us).
Proof.
  intros s s' H. unfold mc_eval. rewrite (core_marg_eq _ _ H). set (bad := match us with [] => None | _ => _ end). destruct bad as [e|].
  - cbn [fst snd]. auto using core_refl.
  - assert (EM : marg_at s' = marg_at s) by (unfold marg_at; now rewrite (core_marg_eq _ _ H)). rewrite EM. cbv zeta. cbn [fst snd].
    set (x := map _ us). destruct (core_eval s s' H (S (length us)) expr (fo_ls fo) (Some "no"%string) nrv x) as (c & E1 & E2 & E3).
    rewrite E1, E2, E3. auto using core_add.
Qed.

(** ** FORM *)
Lemma loop_st_ins n T A : forall s s', same_core s s' -> forall f i Go us lG lg,
  fst (loop_st inv lf expr fo n T A evn f i Go us lG lg s') = fst (loop_st inv lf expr fo n T A evn f i Go us lG lg s) /\
  same_core s (snd (loop_st inv lf expr fo n T A evn f i Go us lG lg s)) /\ same_core s' (snd (loop_st inv lf expr fo n T A evn f i Go us lG lg s')).
Proof.
  intros s s' H f i Go us lG lg.
  pose proof (sim_loop inv lf expr fo n T A evn s f i Go us lG lg s 0 (core_refl _)) as S1.
  pose proof (sim_loop inv lf expr fo n T A evn s f i Go us lG lg s' 0 H) as S2.
  destruct (form_loop _ _ _ _ _ _ _ _ _ _ _ _) as [out c]. destruct S1 as [_ ->]. destruct S2 as [_ ->]. cbn [fst snd]. auto using core_add.
Qed.
Lemma form_ins a : ins3 (run_form fmin chol svd inv fuel lf expr fo evn a).
Proof.
  unfold run_form. apply (ins3_init (fb_type a)
    (fun e s => (mkFobj true (fb_type a) (fb_TA a) (fb_res a), s, FRaise e))
    (fun k TA s => match TA with (T, invT) =>
      let n := length (sm_marg s) in let a := mkFobj true (fb_type a) (Some (T, invT)) (fb_res a) in
      if Nat.eqb k n then
        let '(out, s) := loop_st inv lf expr fo n T invT evn fuel 1 None (Some (computeStartingPoint n T (marg_at s))) 0 (fun _ => 0) s in
        (match out with FDone r => mkFobj true (fb_type a) (fb_TA a) (Some r) | _ => a end, s, out)
      else (a, s, FRaise EValue) end)).
  - intros e. apply ins3_ret.
  - intros k [T A] s s' H. cbv zeta. rewrite (core_marg_eq _ _ H). assert (EM : marg_at s' = marg_at s) by (unfold marg_at; now rewrite (core_marg_eq _ _ H)). rewrite EM.
    destruct (Nat.eqb k _); [|cbn [fst snd]; auto using core_refl].
    match goal with |- context[loop_st _ _ _ _ ?n _ _ _ _ _ ?Go ?us ?lG ?lg s] => destruct (loop_st_ins n T A s s' H fuel 1 Go us lG lg) as (E & C1 & C2);
      destruct (loop_st inv lf expr fo n T A evn fuel 1 Go us lG lg s) as [out t]; destruct (loop_st inv lf expr fo n T A evn fuel 1 Go us lG lg s') as [out' t'] end.
    cbn [fst snd] in *. subst out'. auto.
Qed.

(** ** Monte Carlo *)
Lemma mc_loop_ins stream k nrv A p : forall f st, ins3 (mc_loop_on expr fo mo stream f k nrv A p st).
Proof.
  induction f as [|f IH]; intros st; cbn [mc_loop_on]; [apply ins3_ret|].
  destruct (ms_k st <? mo_samples mo)%Z; [|apply ins3_ret]. cbv zeta.
  destruct (Z.min _ _ <? 0)%Z; [apply ins3_ret|]. destruct (negb _); [apply ins3_ret|].
  set (us := map _ _).
  intros s s' H. assert (EM : marg_at s' = marg_at s) by (unfold marg_at; now rewrite (core_marg_eq _ _ H)). rewrite EM.
  destruct (mc_eval_ins k nrv A us s s' H) as (E & C1 & C2). destruct (mc_eval expr fo k nrv A s us) as [G t]. destruct (mc_eval expr fo k nrv A s' us) as [G' t']. cbn [fst snd] in *. subst G'.
  destruct (mc_block _ _ _ _ _ _ _ _) as [st'|e]; [|cbn [fst snd]; auto].
  destruct (Rleb _ _); [cbn [fst snd]; auto|].
  destruct (IH st' t t' (core_across _ _ _ _ H C1 C2)) as (E1 & E2 & D1 & D2). split; [exact E1|]. split; [exact E2|]. split; eapply core_trans; eassumption.
Qed.
Lemma cmc_ins stream a off : ins3 (fun s => cmc_run_on fmin chol svd inv expr fo mo evn stream fl a s off).
Proof.
  unfold cmc_run_on. cbv zeta.
  with_init (mb_type a). set (k := length M).
    repeat match goal with |- ins3 (fun s => if ?b then _ else _) => destruct b; [apply ins3_ret|] end.
    match goal with |- ins3 (fun s => match ?x with _ => _ end) => destruct x as [[p|]|e] end.
    + apply (ins3_bind3 _ (fun st out s => (mkMb true (mb_type a) (mb_nrv a) _ st _, s, out))); [apply mc_loop_ins|]. intros st out. apply ins3_ret.
    + repeat match goal with |- ins3 (fun s => if ?b then _ else _) => destruct b; [apply ins3_ret|] end.
      intros s s' H. rewrite (core_marg_eq _ _ H). destruct (negb _); [cbn [fst snd]; auto using core_refl|].
      destruct (_ =? 0)%Z; [cbn [fst snd]; auto using core_refl|]. destruct evn; [cbn [fst snd]; auto using core_refl|].
      destruct (Rleb _ _); [cbn [fst snd]; auto using core_add|]. destruct (_ =? 0)%Z; cbn [fst snd]; auto using core_refl, core_add.
    + repeat match goal with |- ins3 (fun s => if ?b then _ else _) => destruct b; [apply ins3_ret|] end. apply ins3_ret.
Qed.
Lemma is_ins stream a off : ins3 (fun s => is_run_on fmin chol svd inv expr fo mo evn stream fl a s off).
Proof.
  unfold is_run_on. apply (ins3_init (mb_type a) (fun e s => (mkMb true (mb_type a) (mb_nrv a) (mb_point a) (mb_st a) (mb_res a), s, MRaised e))
    (fun _ _ s => cmc_run_on fmin chol svd inv expr fo mo evn stream fl a s off)).
  - intros e. apply ins3_ret.
  - intros k TA. apply cmc_ins.
Qed.
Lemma is_new_ins opt : ins (is_new fmin chol svd inv fuel lf expr fo evn opt).
Proof.
  unfold is_new. destruct (form_init opt) as [a|e]; [|apply ins_ret].
  apply (ins_bind3 _ (fun b out s => (match out with FDone r => cmc_new opt (Some (length (sm_marg s), fr_u r)) s | FRaise e => Err e | FFuel => Err ERuntime end, s))); [apply form_ins|].
  intros b out s s' H. unfold cmc_new. rewrite (core_marg_eq _ _ H). cbn [fst snd]. auto using core_refl.
Qed.

(** ** distribution analysis *)
Lemma da_loop_ins stream k nrv A : forall f st, ins3 (da_loop_on expr fo mo stream f k nrv A st).
Proof.
  induction f as [|f IH]; intros st; cbn [da_loop_on]; [apply ins3_ret|].
  destruct (da_k st <? mo_samples mo)%Z; [|apply ins3_ret]. cbv zeta.
  destruct (Z.min _ _ <? 0)%Z; [apply ins3_ret|]. destruct (negb _); [apply ins3_ret|].
  set (us := map _ _).
  intros s s' H. assert (EM : marg_at s' = marg_at s) by (unfold marg_at; now rewrite (core_marg_eq _ _ H)). rewrite EM.
  destruct (mc_eval_ins k nrv A us s s' H) as (E & C1 & C2). destruct (mc_eval expr fo k nrv A s us) as [G t]. destruct (mc_eval expr fo k nrv A s' us) as [G' t']. cbn [fst snd] in *. subst G'.
  destruct G as [G|e]; [|cbn [fst snd]; auto].
  match goal with |- context[da_loop_on _ _ _ _ f k nrv A ?st' t] => destruct (IH st' t t' (core_across _ _ _ _ H C1 C2)) as (E1 & E2 & D1 & D2) end.
  split; [exact E1|]. split; [exact E2|]. split; eapply core_trans; eassumption.
Qed.
Lemma da_ins bins stream a off : ins3 (fun s => da_run_on fmin chol svd inv expr fo mo bins stream fl a s off).
Proof.
  unfold da_run_on. cbv zeta.
  with_init (db_type a). set (k := length M). destruct (_ <? 0)%Z; [apply ins3_ret|].
    apply (ins3_bind3 _ (fun st out s => (mkDb true (db_type a) (db_nrv a) (Some st) _, s, out))); [apply da_loop_ins|]. intros st out. apply ins3_ret.
Qed.

(** ** subset simulation *)
Section SubsetRun.
Variables (randn unif : nat -> R) (k nrv N : nat) (A : mat) (p0 sigma : R).
Lemma blocks_ins f : forall us, ins (eval_blocks_on expr fo k nrv A f us).
Proof.
  induction f as [|f IH]; intros us; cbn [eval_blocks_on]; [apply ins_ret|]. destruct us as [|u us]; [apply ins_ret|]. cbv zeta.
  apply (ins_bind _ (fun G s => match G with Err e => (Err e, s) | Ok G => _ end)); [apply mc_eval_ins|]. intros [G|e]; [|apply ins_ret].
  apply (ins_bind _ (fun G' s => (match G' with Err e => Err e | Ok G' => Ok (G ++ G') end, s))); [apply IH|]. intros G'. apply ins_ret.
Qed.
Lemma batch_ins us : ins (eval_g_batch_on expr fo k nrv A us).
Proof. unfold eval_g_batch_on. destruct (_ <=? 0)%Z; [apply ins_ret|apply blocks_ins]. Qed.
Lemma chain_ins thr m : forall u g pos calls acc, ins (mmh_chain_on expr fo unif k nrv A sigma m thr u g pos calls acc).
Proof.
  induction m as [|m IH]; intros u g pos calls acc; cbn [mmh_chain_on]; [apply ins_ret|]. cbv zeta.
  apply (ins_bind _ (fun G s => match G with Err e => (LvRaise e, s) | Ok Gp => _ end)); [apply mc_eval_ins|]. intros [G|e]; [apply IH|apply ins_ret].
Qed.
Lemma chains_ins thr Nc seeds : forall i pos calls acc, ins (mmh_chains_on expr fo unif k nrv N A sigma Nc i seeds thr pos calls acc).
Proof.
  induction seeds as [|[u g] r IH]; intros i pos calls acc; cbn [mmh_chains_on]; [apply ins_ret|].
  apply (ins_bind _ (fun q s => match q with LvRaise e => (LvRaise e, s) | LvDone acc' pos' calls' => _ end)); [apply chain_ins|]. intros [acc' pos' calls'|e]; [apply IH|apply ins_ret].
Qed.
Lemma step_ins seeds thr pos calls : ins (mmh_step_on expr fo unif k nrv N A sigma seeds thr pos calls).
Proof. unfold mmh_step_on. destruct seeds; [apply ins_ret|apply chains_ins]. Qed.
Lemma ss_loop_ins f : forall st seeds y pos level, ins3 (ss_loop_on expr fo unif k nrv N A p0 sigma f st seeds y pos level).
Proof.
  induction f as [|f IH]; intros st seeds y pos level; cbn [ss_loop_on]; [apply ins3_ret|].
  apply (ins3_bind _ (fun q s => match q with LvRaise e => (st, s, SRaised e) | LvDone smp pos' calls' => _ end)); [apply step_ins|]. intros [smp pos' calls'|e]; [|apply ins3_ret].
  cbv zeta. destruct (Rleb _ _); [apply ins3_ret|apply IH].
Qed.
Lemma body_ins f : ins3 (ss_body expr fo randn unif k nrv N A p0 sigma f).
Proof.
  unfold ss_body. cbv zeta. apply (ins3_bind _ (fun G s => match G with Err e => (mkss [] [] 0 0 [] 0, s, SRaised e) | Ok G => _ end)); [apply batch_ins|].
  intros [G|e]; [|apply ins3_ret]. destruct (Rleb _ _); [apply ins3_ret|apply ss_loop_ins].
Qed.
End SubsetRun.
Lemma ss_ins Ns randn unif a : ins3 (ss_run_on fmin chol svd inv expr fo Ns randn unif fl a).
Proof.
  unfold ss_run_on. cbv zeta.
  with_init (sv_type a). set (k := length M). destruct (_ <? 0)%Z; [apply ins3_ret|]. destruct (_ =? 0)%Z; [destruct (_ =? 0)%Z; apply ins3_ret|].
    apply (ins3_marg (fun l s => let '(st, s, out) := ss_body expr fo randn unif k (length l) (Z.to_nat Ns) A (sv_p0 a) (sv_sigma a) fl s in _)). intros l.
    apply (ins3_bind3 _ (fun st out s => (_, s, out))); [apply body_ins|]. intros st out. apply ins3_ret.
Qed.

(** ** line sampling *)
Lemma ls_call_ins k nrv A u s s' : same_core s s' ->
  match ls_call lf expr fo k nrv A s u, ls_call lf expr fo k nrv A s' u with
  | None, None => True
  | Some r, Some r' => ev_out r' = ev_out r /\ same_core s (ev_s r) /\ same_core s' (ev_s r')
  | _, _ => False
  end.
Proof.
  intros H. unfold ls_call. rewrite (core_marg_eq _ _ H). assert (EM : marg_at s' = marg_at s) by (unfold marg_at; now rewrite (core_marg_eq _ _ H)). rewrite EM.
  destruct (_ && _)%bool; [|exact I]. set (x := [_]). destruct (core_eval s s' H lf expr (fo_ls fo) (Some "no"%string) (length (sm_marg s)) x) as (c & E1 & E2 & E3).
  rewrite E1, E2, E3. auto using core_add.
Qed.
Lemma ls_ev_ins k nrv A s s' : same_core s s' -> ls_ev lf expr fo k nrv A s' = ls_ev lf expr fo k nrv A s.
Proof.
  intros H. apply functional_extensionality. intros u. unfold ls_ev. pose proof (ls_call_ins k nrv A u s s' H) as HH.
  destruct (ls_call lf expr fo k nrv A s u), (ls_call lf expr fo k nrv A s' u); try contradiction; [|reflexivity]. destruct HH as (-> & _). reflexivity.
Qed.
Lemma ls_state_ins k nrv A s u : same_core s (ls_state lf expr fo k nrv A s u).
Proof.
  unfold ls_state. pose proof (ls_call_ins k nrv A u s s (core_refl s)) as HH. destruct (ls_call lf expr fo k nrv A s u); [apply HH|apply core_refl].
Qed.
Lemma ls_fold_ins k nrv A pts : forall s, same_core s (fold_left (ls_state lf expr fo k nrv A) pts s).
Proof.
  induction pts as [|u pts IH]; intros s; [apply core_refl|]. cbn [fold_left]. eapply core_trans; [apply ls_state_ins|apply IH].
Qed.
Lemma ls_form_ins topt a : ins (ls_form fmin chol svd inv fuel lf expr fo evn topt a).
Proof.
  unfold ls_form. destruct (lo_form a) as [b|]; [apply ins_ret|]. destruct (form_init topt) as [b0|e]; [|apply ins_ret].
  apply (ins_bind3 _ (fun b out s => (match out with FDone _ => inl (Ok (length (sm_marg s), b)) | FRaise e => inl (Err e) | FFuel => inr tt end, s))); [apply form_ins|].
  intros b out s s' H. cbn [fst snd]. rewrite (core_marg_eq _ _ H). auto using core_refl.
Qed.
Lemma ls_ins topt Ns randn a : ins3 (ls_run_on fmin chol svd inv brentq fuel lf expr fo evn topt Ns randn a).
Proof.
  unfold ls_run_on. cbv zeta.
  with_init (lo_type a). set (k := length M). apply (ins3_bind _ (fun f s => match f with inr _ => _ | inl (Err e) => _ | inl (Ok (nf, b)) => _ end)); [apply ls_form_ins|].
    intros [[[nf b]|e]|u]; [|apply ins3_ret|apply ins3_ret]. destruct (fb_res b) as [fr|]; [|apply ins3_ret].
    repeat match goal with |- ins3 (fun s => if ?b then _ else _) => destruct b; [apply ins3_ret|] end.
    assert (EN : ins3 (fun s => (mkLo true (lo_type a) (lo_nrv a) (Some (nf, b)) (Some LNaN),
        addCallFunction s (match evn with None => if (Nat.eqb (lo_nrv a) k && Nat.eqb (length (sm_marg s)) k)%bool then (n_scan * Z.to_nat Ns)%nat else 0%nat | Some _ => 0%nat end), LDone))).
    { intros s s' H. cbn [fst snd]. auto using core_add. }
    destruct (form_alpha nf fr) as [alpha|]; [|exact EN]. destruct (form_beta nf fr) as [beta| | |]; try exact EN. clear EN.
    intros s s' H. rewrite (ls_ev_ins k (lo_nrv a) A s s' H). set (pts := flat_map _ _). set (u := nth 0 pts _).
    pose proof (ls_call_ins k (lo_nrv a) A u s s' H) as HH.
    destruct (ls_call lf expr fo k (lo_nrv a) A s u) as [r|], (ls_call lf expr fo k (lo_nrv a) A s' u) as [r'|]; try contradiction; [|cbn [fst snd]; auto using ls_fold_ins].
    destruct HH as (EO & _). destruct r, r'. cbn in EO. subst. match goal with |- context[match ?o with OFuel => _ | _ => _ end] => destruct o end; cbn [fst snd]; auto using core_refl, ls_fold_ins.
Qed.
End Runs.

(** ** lists *)
Lemma upd_length {A} (l : list A) x : forall i, length (upd l i x) = length l.
Proof. induction l as [|y l IH]; intros [|i]; cbn; auto. Qed.
Lemma upd_nth {A} (l : list A) x : forall i j, nth_error (upd l i x) j = if Nat.eqb i j then match nth_error l j with Some _ => Some x | None => None end else nth_error l j.
Proof.
  induction l as [|y l IH]; intros i j; [destruct i, j; cbn; try reflexivity; destruct (Nat.eqb i j); reflexivity|]. destruct i as [|i], j as [|j]; try reflexivity. cbn. apply IH.
Qed.
Lemma F2_nth {A B} (P : A -> B -> Prop) l l' : Forall2 P l l' <-> forall i, match nth_error l i, nth_error l' i with Some x, Some y => P x y | None, None => True | _, _ => False end.
Proof.
  split.
  - intros H. induction H as [|x y l l' H HF IH]; intros [|i]; cbn; auto. apply IH.
  - revert l'. induction l as [|x l IH]; intros [|y l'] H; [constructor|specialize (H 0%nat); contradiction|specialize (H 0%nat); contradiction|].
    constructor; [exact (H 0%nat)|]. apply IH. intros i. exact (H (S i)).
Qed.
Lemma F2_upd {A B} (P : A -> B -> Prop) l l' i x y : Forall2 P l l' -> (forall a b, nth_error l i = Some a -> nth_error l' i = Some b -> P a b -> P x y) -> Forall2 P (upd l i x) (upd l' i y).
Proof.
  rewrite !F2_nth. intros H HP j. specialize (H j). rewrite !upd_nth. destruct (Nat.eqb_spec i j) as [->|]; [|exact H].
  destruct (nth_error l j) eqn:E, (nth_error l' j) eqn:E'; try contradiction; [eauto|exact I].
Qed.
Lemma F2_upd_l {A B} (P : A -> B -> Prop) l l' i x : Forall2 P l l' -> (forall a b, nth_error l i = Some a -> nth_error l' i = Some b -> P a b -> P x b) -> Forall2 P (upd l i x) l'.
Proof.
  rewrite !F2_nth. intros H HP j. specialize (H j). rewrite !upd_nth. destruct (Nat.eqb_spec i j) as [->|]; [|exact H].
  destruct (nth_error l j) eqn:E, (nth_error l' j) eqn:E'; try contradiction; [eauto|exact I].
Qed.
Lemma F2_snoc {A B} (P : A -> B -> Prop) l l' x y : Forall2 P l l' -> P x y -> Forall2 P (l ++ [x]) (l' ++ [y]).
Proof. intros H HP. apply Forall2_app; [exact H|]. constructor; [exact HP|constructor]. Qed.
Lemma F2_at {A B} (P : A -> B -> Prop) l l' i d d' : Forall2 P l l' -> P d d' -> P (nth i l d) (nth i l' d').
Proof. intros H. revert i. induction H; intros [|i]; cbn; auto. Qed.
Lemma nth_err {A} (l : list A) i d x : nth_error l i = Some x -> nth i l d = x.
Proof. apply nth_error_nth. Qed.

(** ** options without the print flag *)
Definition quiet (o : aopts) : aopts := assign o (SetPrintOutput false).
Definition eqp (o o' : aopts) : Prop := quiet o = quiet o'.
Lemma eqp_assign o o' v : eqp o o' -> eqp (assign o v) (assign o' v).
Proof. unfold eqp, quiet. destruct o, o'. cbn. intros H. injection H as. subst. destruct v; reflexivity. Qed.
Lemma fo_quiet o : fo_of (quiet o) = fo_of o. Proof. destruct o; reflexivity. Qed.
Lemma mo_quiet o : mo_of (quiet o) = mo_of o. Proof. destruct o; reflexivity. Qed.
Lemma tr_quiet o : ao_transform_type (quiet o) = ao_transform_type o. Proof. destruct o; reflexivity. Qed.
Lemma sa_quiet o : ao_samples (quiet o) = ao_samples o. Proof. destruct o; reflexivity. Qed.
Lemma bi_quiet o : ao_bins (quiet o) = ao_bins o. Proof. destruct o; reflexivity. Qed.

Section Session.
Variables (fmin : (R -> R) -> R -> R) (chol : nat -> mat -> result mat) (svd : nat -> mat -> result (mat * vec)) (inv : nat -> mat -> result mat).
Variable brentq : (R -> option R) -> R -> R -> option R * list R.
Variables fuel lf fl : nat.
Notation construct := (construct fmin chol svd inv fuel lf).
Notation run_obj := (run_obj fmin chol svd inv brentq fuel lf fl).
Notation step := (step fmin chol svd inv brentq fuel lf fl).
Notation exec := (exec fmin chol svd inv brentq fuel lf fl).

Lemma construct_quiet k e o s : construct k e (quiet o) s = construct k e o s.
Proof. unfold Session.construct. rewrite fo_quiet, tr_quiet. reflexivity. Qed.
Lemma run_quiet a e o s rn un : run_obj a e (quiet o) s rn un = run_obj a e o s rn un.
Proof. unfold Session.run_obj. rewrite fo_quiet, mo_quiet, tr_quiet, sa_quiet, bi_quiet. reflexivity. Qed.
Lemma construct_eqp k e o o' s : eqp o o' -> construct k e o s = construct k e o' s.
Proof. unfold eqp. intros H. rewrite <- (construct_quiet k e o), <- (construct_quiet k e o'), H. reflexivity. Qed.
Lemma run_eqp a e o o' s rn un : eqp o o' -> run_obj a e o s rn un = run_obj a e o' s rn un.
Proof. unfold eqp. intros H. rewrite <- (run_quiet a e o), <- (run_quiet a e o'), H. reflexivity. Qed.

Lemma construct_ins k e o : ins (construct k e o).
Proof.
  unfold Session.construct. cbv zeta. destruct k as [|p| |p0 sg| |].
  - apply ins_ret.
  - intros s s' H. unfold cmc_new. rewrite (core_marg_eq _ _ H). cbn [fst snd]. auto using core_refl.
  - apply (ins_bind _ (fun r s => (rbind r (fun a => Ok (OImportance a)), s))); [apply is_new_ins|]. intros r. apply ins_ret.
  - apply ins_ret.
  - intros s s' H. unfold ls_new. rewrite (core_marg_eq _ _ H). cbn [fst snd]. auto using core_refl.
  - intros s s' H. unfold da_new. rewrite (core_marg_eq _ _ H). cbn [fst snd]. auto using core_refl.
Qed.
Lemma run_ins a e o rn un : ins3 (fun s => run_obj a e o s rn un).
Proof.
  unfold Session.run_obj. destruct a as [f|m|m|v|l|d].
  - apply (ins3_bind3 _ (fun f' out s' => (OForm f', s', SForm out))); [apply form_ins|]. intros; apply ins3_ret.
  - apply (ins3_bind3 (fun s => cmc_run_on _ _ _ _ _ _ _ _ _ _ _ s _) (fun f' out s' => (OCrude f', s', SMc out))); [apply cmc_ins|]. intros; apply ins3_ret.
  - apply (ins3_bind3 (fun s => is_run_on _ _ _ _ _ _ _ _ _ _ _ s _) (fun f' out s' => (OImportance f', s', SMc out))); [apply is_ins|]. intros; apply ins3_ret.
  - apply (ins3_bind3 _ (fun f' out s' => (OSubset f', s', SSub out))); [apply ss_ins|]. intros; apply ins3_ret.
  - apply (ins3_bind3 _ (fun f' out s' => (OLine f', s', SLin out))); [apply ls_ins|]. intros; apply ins3_ret.
  - apply (ins3_bind3 (fun s => da_run_on _ _ _ _ _ _ _ _ _ _ _ s _) (fun f' out s' => (ODistribution f', s', SMc out))); [apply da_ins|]. intros; apply ins3_ret.
Qed.
Lemma print_eqp a o s out : eqp o (print_after fmin chol svd inv a o s out).
Proof.
  unfold print_after. destruct a as [f|m|m|v|l|d]; try reflexivity.
  destruct (snd _); [|reflexivity]. destruct out; try reflexivity; destruct o; try reflexivity. destruct o0; reflexivity.
Qed.
Lemma smstep_core s s' op : same_core s s' -> same_core (sm_step s op) (sm_step s' op).
Proof.
  intros (E1 & E2 & E3 & E4 & E5). destruct op as [o|M|M|n]; cbn [sm_step]; try (repeat split; assumption).
  destruct o as [d|n v|]; cbn [addVariable]; [| |repeat split; assumption].
  - rewrite E2. destruct (mem_str _ _); [repeat split; assumption|]. unfold same_core; cbn. now rewrite E1, E3, E5.
  - rewrite E2. destruct (mem_str _ _); [repeat split; assumption|]. unfold same_core; cbn. now rewrite E5.
Qed.

(** ** the worlds of two scripts that differ in the runs of other analyses *)
Definition wsim (a : nat) (w w' : world) : Prop :=
  Forall2 same_core (w_models w) (w_models w') /\ w_ls w = w_ls w' /\ Forall2 eqp (w_opts w) (w_opts w') /\
  length (w_ans w) = length (w_ans w') /\ nth_error (w_ans w) a = nth_error (w_ans w') a.

Lemma F2_len {A B} (P : A -> B -> Prop) l l' : Forall2 P l l' -> length l = length l'.
Proof. induction 1; cbn; congruence. Qed.
Lemma F2_some {A B} (P : A -> B -> Prop) l l' i : Forall2 P l l' -> match nth_error l i, nth_error l' i with Some x, Some y => P x y | None, None => True | _, _ => False end.
Proof. intros H. revert i. apply F2_nth. exact H. Qed.
Lemma arg_sim {A} (P : A -> A -> Prop) l l' fresh r : Forall2 P l l' -> P fresh fresh ->
  match arg l fresh r, arg l' fresh r with
  | Some (m, i), Some (m', i') => i = i' /\ Forall2 P m m'
  | None, None => True
  | _, _ => False
  end.
Proof.
  intros H HP. unfold arg. destruct r as [i|].
  - rewrite (F2_len _ _ _ H). destruct (Nat.ltb i (length l')); auto.
  - split; [apply (F2_len _ _ _ H)|]. apply F2_snoc; assumption.
Qed.
Lemma nth_snoc {A} (l l' : list A) x a : length l = length l' -> nth_error l a = nth_error l' a -> nth_error (l ++ [x]) a = nth_error (l' ++ [x]) a.
Proof.
  intros HL HE. destruct (Nat.lt_ge_cases a (length l)) as [L|L].
  - rewrite !nth_error_app1 by lia. exact HE.
  - rewrite !nth_error_app2 by lia. now rewrite HL.
Qed.

Lemma step_sim2 a w w' c : wsim a w w' -> (forall b rn un, c = Run b rn un -> b = a) -> wsim a (fst (step w c)) (fst (step w' c)) /\ snd (step w c) = snd (step w' c).
Proof.
  intros (HM & HL & HO & HN & HA) HC. destruct w as [ms ls os ans], w' as [ms' ls' os' ans']. cbn [w_models w_ls w_opts w_ans] in *. subst ls'.
  assert (REF : forall x y : smodel, same_core x y -> same_core x y) by auto.
  destruct c as [|m op|e|l e| |o v|k m l o|i rn un]; cbn [step].
  - split; [|reflexivity]. repeat split; cbn; auto. apply F2_snoc; [exact HM|apply core_refl].
  - pose proof (F2_some _ _ _ m HM) as Hm. destruct (nth_error ms m) as [s|] eqn:E, (nth_error ms' m) as [s'|] eqn:E'; try contradiction.
    + split.
      * repeat split; cbn; auto. apply F2_upd; [exact HM|]. intros. apply smstep_core. exact Hm.
      * cbn [snd]. destruct op as [o| | |]; try reflexivity. destruct o as [d|n v|]; cbn [addVariable]; try reflexivity; destruct Hm as (_ & -> & _); destruct (mem_str _ _); reflexivity.
    + split; [repeat split; auto|reflexivity].
  - split; [|reflexivity]. repeat split; cbn; auto.
  - destruct (Nat.ltb l (length ls)); (split; [|reflexivity]); repeat split; cbn; auto.
  - split; [|reflexivity]. repeat split; cbn; auto. apply F2_snoc; [exact HO|reflexivity].
  - pose proof (F2_some _ _ _ o HO) as Ho. destruct (nth_error os o) as [x|] eqn:E, (nth_error os' o) as [x'|] eqn:E'; try contradiction.
    + split; [|reflexivity]. repeat split; cbn; auto. apply F2_upd; [exact HO|]. intros. apply eqp_assign. exact Ho.
    + split; [repeat split; auto|reflexivity].
  - pose proof (arg_sim same_core ms ms' sm_init m HM (core_refl _)) as AM. pose proof (arg_sim eqp os os' ao_init o HO eq_refl) as AO.
    destruct (arg ms sm_init m) as [[ms1 m1]|], (arg ms' sm_init m) as [[ms1' m1']|]; try contradiction; [|split; [repeat split; auto|reflexivity]].
    destruct (arg ls ls_none l) as [[ls1 l1]|]; [|split; [repeat split; auto|reflexivity]].
    destruct (arg os ao_init o) as [[os1 o1]|], (arg os' ao_init o) as [[os1' o1']|]; try contradiction; [|split; [repeat split; auto|reflexivity]].
    destruct AM as [<- AM], AO as [<- AO].
    rewrite (construct_eqp k (nth l1 ls1 ls_none) _ _ (nth m1 ms1 sm_init) (F2_at eqp os1 os1' o1 ao_init ao_init AO eq_refl)).
    destruct (construct_ins k (nth l1 ls1 ls_none) (nth o1 os1' ao_init) _ _ (F2_at same_core ms1 ms1' m1 sm_init sm_init AM (core_refl _))) as (E1 & D1 & D2).
    pose proof (F2_at same_core ms1 ms1' m1 sm_init sm_init AM (core_refl _)) as HH.
    destruct (construct k _ _ (nth m1 ms1 sm_init)) as [r t]. destruct (construct k _ _ (nth m1 ms1' sm_init)) as [r' t']. cbn [fst snd] in *. subst r'.
    split; [|reflexivity]. repeat split; cbn [w_models w_ls w_opts w_ans].
    + apply F2_upd; [exact AM|]. intros. exact (core_across _ _ _ _ HH D1 D2).
    + exact AO.
    + rewrite !app_length, HN. reflexivity.
    + apply nth_snoc; assumption.
  - rewrite (HC i rn un eq_refl). rewrite HA. destruct (nth_error ans' a) as [[x|]|] eqn:EA; [|split; [repeat split; cbn; auto; congruence|reflexivity]..].
    rewrite (run_eqp (an_obj x) (nth (an_ls x) ls ls_none) _ _ (nth (an_model x) ms sm_init) rn un (F2_at eqp os os' (an_opts x) ao_init ao_init HO eq_refl)).
    pose proof (F2_at same_core ms ms' (an_model x) sm_init sm_init HM (core_refl _)) as HH.
    destruct (run_ins (an_obj x) (nth (an_ls x) ls ls_none) (nth (an_opts x) os' ao_init) rn un _ _ HH) as (E1 & E2 & D1 & D2).
    destruct (run_obj (an_obj x) _ _ (nth (an_model x) ms sm_init) rn un) as [[b t] out]. destruct (run_obj (an_obj x) _ _ (nth (an_model x) ms' sm_init) rn un) as [[b' t'] out']. cbn [fst snd] in *. subst b' out'.
    split; [|reflexivity]. repeat split; cbn [w_models w_ls w_opts w_ans].
    + apply F2_upd; [exact HM|]. intros. exact (core_across _ _ _ _ HH D1 D2).
    + apply F2_upd; [exact HO|]. intros y y' Hy Hy' HP. rewrite (nth_err _ _ _ _ Hy), (nth_err _ _ _ _ Hy').
      unfold eqp in *. rewrite <- (print_eqp (an_obj x) y), <- (print_eqp (an_obj x) y'). exact HP.
    + rewrite !upd_length. exact HN.
    + rewrite !upd_nth, Nat.eqb_refl, HA, EA. reflexivity.
Qed.
Lemma other_sim a w w' b rn un : wsim a w w' -> b <> a -> wsim a (fst (step w (Run b rn un))) w'.
Proof.
  intros (HM & HL & HO & HN & HA) HB. destruct w as [ms ls os ans], w' as [ms' ls' os' ans']. cbn [w_models w_ls w_opts w_ans] in *. subst ls'. cbn [step].
  destruct (nth_error ans b) as [[x|]|] eqn:EA; [|repeat split; cbn; auto..].
  destruct (run_ins (an_obj x) (nth (an_ls x) ls ls_none) (nth (an_opts x) os ao_init) rn un _ _ (core_refl (nth (an_model x) ms sm_init))) as (_ & _ & D1 & _).
  destruct (run_obj (an_obj x) _ _ (nth (an_model x) ms sm_init) rn un) as [[o t] out]. cbn [fst snd] in *.
  repeat split; cbn [w_models w_ls w_opts w_ans].
  - apply F2_upd_l; [exact HM|]. intros y y' Hy Hy' HP. rewrite (nth_err _ _ _ _ Hy) in D1. apply (core_trans _ y); [apply core_sym, D1|exact HP].
  - apply F2_upd_l; [exact HO|]. intros y y' Hy Hy' HP. rewrite (nth_err _ _ _ _ Hy). unfold eqp in *. rewrite <- (print_eqp (an_obj x) y). exact HP.
  - rewrite upd_length. exact HN.
  - rewrite upd_nth. destruct (Nat.eqb_spec b a); [contradiction|exact HA].
Qed.
Lemma fold_sim a p : forall w w', wsim a w w' ->
  wsim a (fold_left (fun w c => fst (step w c)) p w) (fold_left (fun w c => fst (step w c)) (alone a p) w').
Proof.
  induction p as [|c p IH]; intros w w' H; [exact H|]. cbn [fold_left alone filter].
  assert (KEEP : (forall b rn un, c = Run b rn un -> b = a) -> wsim a (fold_left (fun w c => fst (step w c)) p (fst (step w c))) (fold_left (fun w c => fst (step w c)) (c :: filter (fun c => match c with Run b _ _ => Nat.eqb a b | _ => true end) p) w')).
  { intros HC. cbn [fold_left]. apply IH. apply step_sim2; assumption. }
  destruct c as [|m op|e|l e| |o v|k m l o|i rn un]; try (apply KEEP; discriminate).
  destruct (Nat.eqb_spec a i) as [->|HN].
  - apply KEEP. intros b rn' un' E. injection E as ->. reflexivity.
  - apply IH. apply other_sim; [exact H|congruence].
Qed.
Lemma wsim_refl a w : wsim a w w.
Proof.
  repeat split; auto; apply F2_nth; intros i; (destruct (nth_error _ i); [|exact I]); [apply core_refl|reflexivity].
Qed.
Lemma exec_sim a p : wsim a (exec p) (exec (alone a p)).
Proof. apply fold_sim. apply wsim_refl. Qed.
Lemma exec_app p q : exec (p ++ q) = fold_left (fun w c => fst (step w c)) q (exec p).
Proof. unfold Session.exec. apply fold_left_app. Qed.

(** ** what one command does to one object *)
Definition settle (o : nat) (x : aopts) (c : cmd) : aopts := match c with Set_ o' v => if Nat.eqb o o' then assign x v else x | _ => x end.
Definition callm (m : nat) (s : smodel) (c : cmd) : smodel := match c with ModelCall m' op => if Nat.eqb m m' then sm_step s op else s | _ => s end.
Definition setl (l : nat) (e : lstate) (c : cmd) : lstate := match c with SetExpression l' e' => if Nat.eqb l l' then e' else e | _ => e end.
Lemma arg_nth {A} (l : list A) d r l' i j x : arg l d r = Some (l', i) -> nth_error l j = Some x -> nth_error l' j = Some x.
Proof.
  unfold arg. destruct r as [q|]; [destruct (Nat.ltb q _); [|discriminate]|]; intros E H; injection E as <- <-; [exact H|].
  rewrite nth_error_app1; [exact H|]. apply nth_error_Some. congruence.
Qed.
Lemma app_nth {A} (l : list A) x y j : nth_error l j = Some x -> nth_error (l ++ [y]) j = Some x.
Proof. intros H. rewrite nth_error_app1; [exact H|]. apply nth_error_Some. congruence. Qed.

Lemma step_opt w c o x : nth_error (w_opts w) o = Some x -> exists y, nth_error (w_opts (fst (step w c))) o = Some y /\ eqp (settle o x c) y.
Proof.
  destruct w as [ms ls os ans]. cbn [w_opts]. intros H.
  assert (SAME : exists y, nth_error os o = Some y /\ eqp x y) by (exists x; split; [exact H|reflexivity]).
  destruct c as [|m op|e|l e| |o' v|k m l o'|i rn un]; cbn [step settle].
  - exact SAME.
  - destruct (nth_error ms m); exact SAME.
  - exact SAME.
  - destruct (Nat.ltb _ _); exact SAME.
  - exists x. split; [apply app_nth, H|reflexivity].
  - destruct (Nat.eqb_spec o o') as [<-|NE].
    + rewrite H. cbn. rewrite upd_nth, Nat.eqb_refl, H. eexists. split; reflexivity.
    + destruct (nth_error os o'); [|exact SAME]. cbn. rewrite upd_nth. destruct (Nat.eqb_spec o' o); [congruence|exact SAME].
  - destruct (arg ms _ _) as [[ms1 m1]|]; [|exact SAME]. destruct (arg ls _ _) as [[ls1 l1]|]; [|exact SAME]. destruct (arg os _ _) as [[os1 o1]|] eqn:EO; [|exact SAME].
    destruct (construct _ _ _ _) as [r t]. cbn. exists x. split; [exact (arg_nth _ _ _ _ _ _ _ EO H)|reflexivity].
  - destruct (nth_error ans i) as [[a|]|]; [|exact SAME..]. destruct (run_obj _ _ _ _ _ _) as [[b t] out]. cbn. rewrite upd_nth.
    destruct (Nat.eqb_spec (an_opts a) o) as [<-|]; [|exact SAME]. rewrite H, (nth_err _ _ _ _ H). eexists. split; [reflexivity|apply print_eqp].
Qed.
Lemma step_model w c m s : nth_error (w_models w) m = Some s -> exists y, nth_error (w_models (fst (step w c))) m = Some y /\ same_core (callm m s c) y.
Proof.
  destruct w as [ms ls os ans]. cbn [w_models]. intros H.
  assert (SAME : exists y, nth_error ms m = Some y /\ same_core s y) by (exists s; split; [exact H|apply core_refl]).
  destruct c as [|m' op|e|l e| |o' v|k m' l o'|i rn un]; cbn [step callm].
  - exists s. split; [apply app_nth, H|apply core_refl].
  - destruct (Nat.eqb_spec m m') as [<-|NE].
    + rewrite H. cbn. rewrite upd_nth, Nat.eqb_refl, H. eexists. split; [reflexivity|apply core_refl].
    + destruct (nth_error ms m'); [|exact SAME]. cbn. rewrite upd_nth. destruct (Nat.eqb_spec m' m); [congruence|exact SAME].
  - exact SAME.
  - destruct (Nat.ltb _ _); exact SAME.
  - exact SAME.
  - destruct (nth_error os o'); exact SAME.
  - destruct (arg ms _ _) as [[ms1 m1]|] eqn:EM; [|exact SAME]. destruct (arg ls _ _) as [[ls1 l1]|]; [|exact SAME]. destruct (arg os _ _) as [[os1 o1]|]; [|exact SAME].
    pose proof (arg_nth _ _ _ _ _ _ _ EM H) as H1.
    destruct (construct_ins k (nth l1 ls1 ls_none) (nth o1 os1 ao_init) _ _ (core_refl (nth m1 ms1 sm_init))) as (_ & D & _).
    destruct (construct k _ _ _) as [r t]. cbn [fst snd w_models] in *. rewrite upd_nth. destruct (Nat.eqb_spec m1 m) as [->|]; [|exists s; split; [exact H1|apply core_refl]].
    rewrite H1. rewrite (nth_err _ _ _ _ H1) in D. eauto.
  - destruct (nth_error ans i) as [[a|]|]; [|exact SAME..].
    destruct (run_ins (an_obj a) (nth (an_ls a) ls ls_none) (nth (an_opts a) os ao_init) rn un _ _ (core_refl (nth (an_model a) ms sm_init))) as (_ & _ & D & _).
    destruct (run_obj _ _ _ _ _ _) as [[b t] out]. cbn [fst snd w_models] in *. rewrite upd_nth.
    destruct (Nat.eqb_spec (an_model a) m) as [<-|]; [|exact SAME]. rewrite H. rewrite (nth_err _ _ _ _ H) in D. eauto.
Qed.
Lemma step_ls w c l e : nth_error (w_ls w) l = Some e -> nth_error (w_ls (fst (step w c))) l = Some (setl l e c).
Proof.
  destruct w as [ms ls os ans]. cbn [w_ls]. intros H.
  destruct c as [|m' op|e'|l' e'| |o' v|k m' l' o'|i rn un]; cbn [step setl]; try exact H.
  - destruct (nth_error ms m'); exact H.
  - apply app_nth, H.
  - destruct (Nat.ltb_spec l' (length ls)) as [L|L]; cbn.
    + rewrite upd_nth. rewrite (Nat.eqb_sym l' l). destruct (Nat.eqb l l'); [now rewrite H|exact H].
    + destruct (Nat.eqb_spec l l'); [|exact H]. apply nth_error_None in L. subst. congruence.
  - destruct (nth_error os o'); exact H.
  - destruct (arg ms _ _) as [[ms1 m1]|]; [|exact H]. destruct (arg ls _ _) as [[ls1 l1]|] eqn:EL; [|exact H]. destruct (arg os _ _) as [[os1 o1]|]; [|exact H].
    destruct (construct k _ _ _) as [r t]. cbn. exact (arg_nth _ _ _ _ _ _ _ EL H).
  - destruct (nth_error ans i) as [[a|]|]; [|exact H..]. destruct (run_obj _ _ _ _ _ _) as [[b t] out]. exact H.
Qed.

Lemma cmc_type expr fo mo evn stream a s off : mb_type (fst (fst (cmc_run_on fmin chol svd inv expr fo mo evn stream fl a s off))) = mb_type a.
Proof.
  unfold cmc_run_on. cbv zeta. destruct (init_run_full _ _ _ _ _ _) as [t [[T A]|e]]; [|reflexivity].
  repeat match goal with |- context[if ?b then _ else _] => destruct b; [reflexivity|] end.
  destruct (centre _ _) as [[p|]|e].
  - destruct (mc_loop_on _ _ _ _ _ _ _ _ _ _ _) as [[st t'] out]. reflexivity.
  - repeat match goal with |- context[if ?b then _ else _] => destruct b; [reflexivity|] end. destruct evn; [reflexivity|].
    repeat match goal with |- context[if ?b then _ else _] => destruct b; [reflexivity|] end. reflexivity.
  - repeat match goal with |- context[if ?b then _ else _] => destruct b; [reflexivity|] end. reflexivity.
Qed.
Lemma run_type a e o s rn un : same_class a (fst (fst (run_obj a e o s rn un))) /\ obj_type (fst (fst (run_obj a e o s rn un))) = obj_type a.
Proof.
  unfold Session.run_obj. destruct a as [f|m|m|v|l|d].
  - destruct (run_form _ _ _ _ _ _ _ _ _ _ _) as [[f' t] out] eqn:E. cbn. split; [exact I|]. apply (f_equal (fun x => fb_type (fst (fst x)))) in E. cbn in E. rewrite <- E. clear.
    unfold run_form. destruct (init_run_full _ _ _ _ _ _) as [t [[T A]|e']]; [|reflexivity]. cbv zeta. destruct (Nat.eqb _ _); [|reflexivity].
    destruct (loop_st _ _ _ _ _ _ _ _ _ _ _ _ _ _ _) as [[r|e'|] t']; reflexivity.
  - pose proof (cmc_type (fst e) (fo_of o) (mo_of o) (snd e) rn m s 0) as E. destruct (cmc_run_on _ _ _ _ _ _ _ _ _ _ _ _ _) as [[m' t] out]. cbn in *. auto.
  - assert (E : mb_type (fst (fst (is_run_on fmin chol svd inv (fst e) (fo_of o) (mo_of o) (snd e) rn fl m s 0))) = mb_type m).
    { unfold is_run_on. destruct (init_run_full _ _ _ _ _ _) as [t [TA|e']]; [apply cmc_type|reflexivity]. }
    destruct (is_run_on _ _ _ _ _ _ _ _ _ _ _ _ _) as [[m' t] out]. cbn in *. auto.
  - destruct (ss_run_on _ _ _ _ _ _ _ _ _ _ _ _) as [[f' t] out] eqn:E. cbn. split; [exact I|]. apply (f_equal (fun x => sv_type (fst (fst x)))) in E. cbn in E. rewrite <- E. clear.
    unfold ss_run_on. destruct (init_run_full _ _ _ _ _ _) as [t [[T A]|e']]; [|reflexivity]. cbv zeta.
    repeat match goal with |- context[if ?b then _ else _] => destruct b; try reflexivity end. destruct (ss_body _ _ _ _ _ _ _ _ _ _ _ _) as [[st t'] [|e'|]]; reflexivity.
  - destruct (ls_run_on _ _ _ _ _ _ _ _ _ _ _ _ _ _ _) as [[f' t] out] eqn:E. cbn. split; [exact I|]. apply (f_equal (fun x => lo_type (fst (fst x)))) in E. cbn in E. rewrite <- E. clear.
    unfold ls_run_on. cbv zeta. destruct (init_run_full _ _ _ _ _ _) as [t [[T A]|e']]; [|reflexivity]. destruct (ls_form _ _ _ _ _ _ _ _ _ _ _) as [[[[nf b]|e']|u] t']; [|reflexivity..].
    destruct (fb_res b) as [fr|]; [|reflexivity]. repeat match goal with |- context[if ?b then _ else _] => destruct b; [reflexivity|] end.
    destruct (form_alpha nf fr) as [al|]; [|reflexivity]. destruct (form_beta nf fr); try reflexivity. destruct (ls_call _ _ _ _ _ _ _) as [q|]; [|reflexivity]. destruct q. match goal with |- context[match ?o with OFuel => _ | _ => _ end] => destruct o end; reflexivity.
  - destruct (da_run_on _ _ _ _ _ _ _ _ _ _ _ _ _) as [[f' t] out] eqn:E. cbn. split; [exact I|]. apply (f_equal (fun x => db_type (fst (fst x)))) in E. cbn in E. rewrite <- E. clear.
    unfold da_run_on. cbv zeta. destruct (init_run_full _ _ _ _ _ _) as [t [[T A]|e']]; [|reflexivity]. destruct (_ <? 0)%Z; [reflexivity|]. destruct (da_loop_on _ _ _ _ _ _ _ _ _ _) as [[st t'] out]. reflexivity.
Qed.
Lemma class_trans a b c : same_class a b -> same_class b c -> same_class a c.
Proof. destruct a, b, c; cbn; tauto. Qed.
Lemma step_an w c i a : nth_error (w_ans w) i = Some (Some a) -> exists b, nth_error (w_ans (fst (step w c))) i = Some (Some b) /\
  an_model b = an_model a /\ an_ls b = an_ls a /\ an_opts b = an_opts a /\ same_class (an_obj a) (an_obj b) /\ obj_type (an_obj b) = obj_type (an_obj a).
Proof.
  destruct w as [ms ls os ans]. cbn [w_ans]. intros H.
  assert (SAME : exists b, nth_error ans i = Some (Some b) /\ an_model b = an_model a /\ an_ls b = an_ls a /\ an_opts b = an_opts a /\ same_class (an_obj a) (an_obj b) /\ obj_type (an_obj b) = obj_type (an_obj a)).
  { exists a. split; [exact H|]. repeat split. destruct (an_obj a); exact I. }
  destruct c as [|m' op|e'|l' e'| |o' v|k m' l' o'|j rn un]; cbn [step]; try exact SAME.
  - destruct (nth_error ms m'); exact SAME.
  - destruct (Nat.ltb _ _); exact SAME.
  - destruct (nth_error os o'); exact SAME.
  - destruct (arg ms _ _) as [[ms1 m1]|]; [|exact SAME]. destruct (arg ls _ _) as [[ls1 l1]|] eqn:EL; [|exact SAME]. destruct (arg os _ _) as [[os1 o1]|]; [|exact SAME].
    destruct (construct k _ _ _) as [r t]. cbn [fst w_ans]. destruct SAME as (b & Hb & HB). exists b. split; [apply app_nth, Hb|exact HB].
  - destruct (nth_error ans j) as [[x|]|] eqn:EJ; [|exact SAME..]. pose proof (run_type (an_obj x) (nth (an_ls x) ls ls_none) (nth (an_opts x) os ao_init) (nth (an_model x) ms sm_init) rn un) as RT.
    destruct (run_obj _ _ _ _ _ _) as [[b t] out]. cbn [fst snd w_ans] in *. rewrite upd_nth. destruct (Nat.eqb_spec j i) as [->|]; [|exact SAME].
    rewrite H. rewrite H in EJ. injection EJ as <-. eexists. split; [reflexivity|]. cbn. tauto.
Qed.

(** ** and a whole script *)
Lemma fold_opt o p : forall w x, nth_error (w_opts w) o = Some x -> exists y, nth_error (w_opts (fold_left (fun w c => fst (step w c)) p w)) o = Some y /\ eqp (fold_left (settle o) p x) y.
Proof.
  induction p as [|c p IH]; intros w x H; [exists x; split; [exact H|reflexivity]|]. cbn [fold_left].
  destruct (step_opt w c o x H) as (y & Hy & EY). destruct (IH _ _ Hy) as (z & Hz & EZ). exists z. split; [exact Hz|].
  unfold eqp in *. rewrite <- EZ. clear - EY. revert EY. generalize (settle o x c). clear. intros x. revert x y. induction p as [|c p IH]; intros x y E; [exact E|].
  cbn [fold_left]. apply IH. unfold settle. destruct c; try exact E. destruct (Nat.eqb _ _); [|exact E]. apply eqp_assign. exact E.
Qed.
Lemma fold_model m p : forall w s, nth_error (w_models w) m = Some s -> exists y, nth_error (w_models (fold_left (fun w c => fst (step w c)) p w)) m = Some y /\ same_core (fold_left (callm m) p s) y.
Proof.
  induction p as [|c p IH]; intros w s H; [exists s; split; [exact H|apply core_refl]|]. cbn [fold_left].
  destruct (step_model w c m s H) as (y & Hy & EY). destruct (IH _ _ Hy) as (z & Hz & EZ). exists z. split; [exact Hz|].
  apply (core_trans _ (fold_left (callm m) p y)); [|exact EZ]. clear - EY. revert EY. generalize (callm m s c). clear. intros s. revert s y. induction p as [|c p IH]; intros x y E; [exact E|].
  cbn [fold_left]. apply IH. unfold callm. destruct c; try exact E. destruct (Nat.eqb _ _); [|exact E]. apply smstep_core. exact E.
Qed.
Lemma fold_calls m p : forall s, fold_left (callm m) p s = fold_left sm_step (calls_on m p) s.
Proof.
  induction p as [|c p IH]; intros s; [reflexivity|]. cbn [fold_left]. rewrite IH. unfold calls_on. cbn [flat_map]. rewrite fold_left_app. fold (calls_on m p). f_equal.
  destruct c; try reflexivity. cbn [callm]. destruct (Nat.eqb _ _); reflexivity.
Qed.
Lemma fold_ls l p : forall w e, nth_error (w_ls w) l = Some e -> nth_error (w_ls (fold_left (fun w c => fst (step w c)) p w)) l = Some (last_expr l e p).
Proof.
  induction p as [|c p IH]; intros w e H; [exact H|]. cbn [fold_left]. rewrite (IH _ _ (step_ls w c l e H)). destruct c; reflexivity.
Qed.
Lemma fold_an i p : forall w a, nth_error (w_ans w) i = Some (Some a) -> exists b, nth_error (w_ans (fold_left (fun w c => fst (step w c)) p w)) i = Some (Some b) /\
  an_model b = an_model a /\ an_ls b = an_ls a /\ an_opts b = an_opts a /\ same_class (an_obj a) (an_obj b) /\ obj_type (an_obj b) = obj_type (an_obj a).
Proof.
  induction p as [|c p IH]; intros w a H.
  - exists a. split; [exact H|]. repeat split. destruct (an_obj a); exact I.
  - cbn [fold_left]. destruct (step_an w c i a H) as (b & Hb & E1 & E2 & E3 & E4 & E5). destruct (IH _ _ Hb) as (d & Hd & F1 & F2 & F3 & F4 & F5).
    exists d. split; [exact Hd|]. repeat (split; [congruence|]). split; [exact (class_trans _ _ _ E4 F4)|congruence].
Qed.
Lemma last_field {A} (pick : setting -> option A) (field : aopts -> A) o :
  (forall x v, field (assign x v) = match pick v with Some z => z | None => field x end) -> forall p x, field (fold_left (settle o) p x) = last_set pick o (field x) p.
Proof.
  intros HF. induction p as [|c p IH]; intros x; [reflexivity|]. cbn [fold_left]. rewrite IH. destruct c; try reflexivity. cbn [settle last_set]. destruct (Nat.eqb _ _); [rewrite HF|]; reflexivity.
Qed.
Lemma fold_current o p y : eqp (fold_left (settle o) p ao_init) y -> current o p y.
Proof.
  intros H. unfold current.
  repeat split; match goal with |- ?f y = last_set ?pick o _ p =>
    transitivity (f (fold_left (settle o) p ao_init)); [unfold eqp, quiet in H; destruct (fold_left (settle o) p ao_init), y; cbn in H; injection H as; subst; reflexivity|];
    apply (last_field pick f o); intros x v; destruct x, v; reflexivity end.
Qed.
Lemma construct_type k e o s r t : construct k e o s = (Ok r, t) -> exists f0, form_init (ao_transform_type o) = Ok f0 /\ fb_type f0 = obj_type r.
Proof.
  unfold Session.construct. cbv zeta. destruct k as [|p| |p0 sg| |]; intros H.
  - destruct (form_init _) as [a|]; [|discriminate]. injection H as <- <-. exists a. auto.
  - unfold cmc_new in H. destruct (form_init _) as [a|]; [|discriminate]. injection H as <- <-. exists a. auto.
  - unfold is_new in H. destruct (form_init _) as [a|] eqn:E; [|discriminate]. destruct (run_form _ _ _ _ _ _ _ _ _ _ _) as [[b s'] [r'|e'|]]; try discriminate.
    unfold cmc_new in H. rewrite E in H. injection H as <- <-. exists a. auto.
  - unfold ss_new in H. destruct (form_init _) as [a|]; [|discriminate]. cbn in H. destruct (ss_init p0); [|discriminate]. injection H as <- <-. exists a. auto.
  - unfold ls_new in H. destruct (form_init _) as [a|]; [|discriminate]. injection H as <- <-. exists a. auto.
  - unfold da_new in H. destruct (form_init _) as [a|]; [|discriminate]. injection H as <- <-. exists a. auto.
Qed.
End Session.
