From Coquelicot Require Import Coquelicot.
From Verif Require Import Base StochModel Gauss GaussProofs Dist DistSpec DistProofs.
Open Scope R_scope.

Lemma PI_lt_4 : PI < 4.
Proof. pose proof (proj2 (PI_ineq 1)) as H. unfold tg_alt, PI_tg in H. simpl in H. lra. Qed.

(** ** Lognormal parameters and moments *)
Lemma cov_pos m s : 0 < m -> 0 < s -> 0 < s / m * (s / m).
Proof. intros. assert (0 < s / m) by (apply Rdiv_lt_0_compat; assumption). nra. Qed.

Lemma zeta_sq m s : 0 < m -> 0 < s ->
  snd (ln_params m s) * snd (ln_params m s) = ln (1 + s / m * (s / m)) /\ 0 < ln (1 + s / m * (s / m)).
Proof.
  intros Hm Hs. pose proof (cov_pos m s Hm Hs). assert (0 < ln (1 + s / m * (s / m))).
  { rewrite <- ln_1. apply ln_increasing; lra. }
  split; [|assumption]. unfold ln_params. cbn [snd]. apply sqrt_sqrt. lra.
Qed.

Lemma zeta_pos m s : 0 < m -> 0 < s -> 0 < snd (ln_params m s).
Proof. intros Hm Hs. apply sqrt_lt_R0. apply zeta_sq; assumption. Qed.

Lemma exp_zeta m s : 0 < m -> 0 < s ->
  exp (snd (ln_params m s) * snd (ln_params m s)) = 1 + s / m * (s / m).
Proof. intros Hm Hs. rewrite (proj1 (zeta_sq m s Hm Hs)). apply exp_ln. pose proof (cov_pos m s Hm Hs). lra. Qed.

Lemma exp_half_sq z : exp (z * z / 2) * exp (z * z / 2) = exp (z * z).
Proof. rewrite <- exp_plus. f_equal. field. Qed.

Lemma ln_moments m s : 0 < m -> 0 < s ->
  let l := fst (ln_params m s) in let z := snd (ln_params m s) in
  exp l * exp (z * z / 2) = m /\ exp l * sqrt ((exp (z * z) - 1) * exp (z * z)) = s.
Proof.
  intros Hm Hs l z.
  assert (A : exp l * exp (z * z / 2) = m).
  { rewrite <- exp_plus. replace (l + z * z / 2) with (ln m); [apply exp_ln, Hm|]. unfold l, z, ln_params. cbn [fst snd]. field. }
  split; [exact A|].
  pose proof (exp_zeta m s Hm Hs) as E. fold z in E.
  rewrite sqrt_mult; [|pose proof (cov_pos m s Hm Hs); lra|apply Rlt_le, exp_pos].
  rewrite <- (exp_half_sq z) at 2. rewrite sqrt_square by apply Rlt_le, exp_pos.
  rewrite E. replace (1 + s / m * (s / m) - 1) with (s / m * (s / m)) by ring.
  rewrite sqrt_square by (apply Rlt_le, Rdiv_lt_0_compat; assumption).
  replace (exp l * (s / m * exp (z * z / 2))) with ((exp l * exp (z * z / 2)) * (s / m)) by ring.
  rewrite A. field. lra.
Qed.

(** the other direction: parameters are recovered from the moments they imply *)
Lemma ln_params_of_moments l z : 0 < z ->
  ln_params (exp l * exp (z * z / 2)) (exp l * sqrt ((exp (z * z) - 1) * exp (z * z))) = (l, z).
Proof.
  intros Hz. assert (G : 1 < exp (z * z)). { rewrite <- exp_0. apply exp_increasing. nra. }
  pose proof (exp_pos l). pose proof (exp_pos (z * z / 2)).
  assert (C : exp l * sqrt ((exp (z * z) - 1) * exp (z * z)) / (exp l * exp (z * z / 2)) = sqrt (exp (z * z) - 1)).
  { rewrite sqrt_mult by lra. rewrite <- (exp_half_sq z) at 2. rewrite sqrt_square by lra. field. lra. }
  assert (Z : sqrt (ln (1 + sqrt (exp (z * z) - 1) * sqrt (exp (z * z) - 1))) = z).
  { rewrite sqrt_sqrt by lra. replace (1 + (exp (z * z) - 1)) with (exp (z * z)) by ring. rewrite ln_exp. apply sqrt_square. lra. }
  unfold ln_params. rewrite C, Z. f_equal. rewrite ln_mult by assumption. rewrite !ln_exp. field.
Qed.

(** the cdf written with Phi *)
Lemma ln_cdf_Phi l z x : 0 < x -> ln_cdf l z x = Phi ((ln x - l) / z).
Proof. intros H. unfold ln_cdf. replace (Rltb 0 x) with true by (symmetry; apply Rltb_spec, H). reflexivity. Qed.

Lemma ln_pdf_phi l z x : 0 < z -> 0 < x -> ln_pdf l z x = phi ((ln x - l) / z) / (z * x).
Proof.
  intros. unfold ln_pdf, phi. assert (0 < sqrt (2 * PI)) by (apply sqrt_lt_R0; pose proof PI_RGT_0; lra). field. repeat split; lra.
Qed.

(** ** derivatives in the parameters *)
Lemma Phi_comp_derive (g : R -> R) t dg : is_derive g t dg -> is_derive (fun x => Phi (g x)) t (phi (g t) * dg).
Proof.
  intros H. replace (phi (g t) * dg) with (scal dg (phi (g t))) by (unfold scal; simpl; unfold mult; simpl; ring).
  apply (is_derive_comp Phi g); [apply Phi_derive|exact H].
Qed.

Lemma normal_dmean s x m : 0 < s -> is_derive (fun m => Phi ((x - m) / s)) m (- phi ((x - m) / s) / s).
Proof.
  intros Hs. replace (- phi ((x - m) / s) / s) with (phi ((x - m) / s) * (- / s)) by (unfold Rdiv; ring).
  apply (Phi_comp_derive (fun m => (x - m) / s)). auto_derive; [exact I|field; lra].
Qed.

Lemma normal_dstdv m x s : 0 < s -> is_derive (fun s => Phi ((x - m) / s)) s (- phi ((x - m) / s) * ((x - m) / s) / s).
Proof.
  intros Hs. replace (- phi ((x - m) / s) * ((x - m) / s) / s) with (phi ((x - m) / s) * (- ((x - m) / (s * s)))) by (field; lra).
  apply (Phi_comp_derive (fun s => (x - m) / s)). auto_derive; [lra|field; lra].
Qed.

Lemma half_sq_derive (f z : R -> R) t df dz : is_derive f t df -> is_derive z t dz ->
  is_derive (fun m => f m - 1 / 2 * (z m * z m)) t (df - z t * dz).
Proof.
   intros F Z. auto_derive; [repeat split; first [exact I|eexists; exact F|eexists; exact Z]|].
  rewrite (is_derive_unique (fun y : R => f y) t _ F), (is_derive_unique (fun y : R => z y) t _ Z). field.
Qed.
Lemma quot_derive (c : R) (l z : R -> R) t dl dz : is_derive l t dl -> is_derive z t dz -> z t <> 0 ->
  is_derive (fun m => (c - l m) / z m) t ((- dl - (c - l t) / z t * dz) / z t).
Proof.
  intros L Z N. auto_derive; [repeat split; first [exact I|exact N|eexists; exact L|eexists; exact Z]|].
  rewrite (is_derive_unique (fun y : R => l y) t _ L), (is_derive_unique (fun y : R => z y) t _ Z). field. exact N.
Qed.

Definition ln_z (m s x : R) : R := (ln x - fst (ln_params m s)) / snd (ln_params m s).

Lemma ln_dmean s x m : 0 < m -> 0 < s ->
  let z := snd (ln_params m s) in let c := s / m in
  let dz := - (c * c) / (m * z * (1 + c * c)) in
  is_derive (fun m => Phi (ln_z m s x)) m (phi (ln_z m s x) / z * (- (1 / m - z * dz) - ln_z m s x * dz)).
Proof.
  intros Hm Hs z c dz. pose proof (zeta_sq m s Hm Hs) as [Z L]. pose proof (zeta_pos m s Hm Hs) as Hz. fold z in Z, Hz.
  replace (phi (ln_z m s x) / z * (- (1 / m - z * dz) - ln_z m s x * dz))
    with (phi (ln_z m s x) * ((- (1 / m - z * dz) - ln_z m s x * dz) / z)) by (field; lra).
  apply (Phi_comp_derive (fun m => ln_z m s x)).
  assert (Dz : is_derive (fun m => snd (ln_params m s)) m dz).
  { unfold ln_params. cbn [snd]. pose proof (cov_pos m s Hm Hs). auto_derive.
    - repeat split; try lra; unfold Rdiv in *; lra.
    - unfold dz, c, z, ln_params. cbn [snd]. unfold Rdiv in *. field. repeat split; try lra.
      + nra.
      + assert (E := sqrt_lt_R0 _ L). unfold Rdiv in E. lra. }
  assert (Dl : is_derive (fun m => fst (ln_params m s)) m (1 / m - z * dz)).
  { apply (half_sq_derive ln (fun m => snd (ln_params m s))); [|exact Dz].
    replace (1 / m) with (/ m) by (field; lra). apply is_derive_ln, Hm. }
  apply (quot_derive (ln x) (fun m => fst (ln_params m s)) (fun m => snd (ln_params m s))); [exact Dl|exact Dz|fold z; lra].
Qed.

Lemma ln_dstdv m x s : 0 < m -> 0 < s ->
  let z := snd (ln_params m s) in let c := s / m in
  let dz := c / (m * z * (1 + c * c)) in
  is_derive (fun s => Phi (ln_z m s x)) s (phi (ln_z m s x) / z * (- (- z * dz) - ln_z m s x * dz)).
Proof.
  intros Hm Hs z c dz. pose proof (zeta_sq m s Hm Hs) as [Z L]. pose proof (zeta_pos m s Hm Hs) as Hz. fold z in Z, Hz.
  replace (phi (ln_z m s x) / z * (- (- z * dz) - ln_z m s x * dz))
    with (phi (ln_z m s x) * ((- (- z * dz) - ln_z m s x * dz) / z)) by (field; lra).
  apply (Phi_comp_derive (fun s => ln_z m s x)).
  assert (Dz : is_derive (fun s => snd (ln_params m s)) s dz).
  { unfold ln_params. cbn [snd]. pose proof (cov_pos m s Hm Hs). auto_derive.
    - repeat split; try lra; unfold Rdiv in *; lra.
    - unfold dz, c, z, ln_params. cbn [snd]. unfold Rdiv in *. field. repeat split; try lra.
      + nra.
      + assert (E := sqrt_lt_R0 _ L). unfold Rdiv in E. lra. }
  assert (Dl : is_derive (fun s => fst (ln_params m s)) s (- z * dz)).
  { replace (- z * dz) with (0 - z * dz) by ring.
    apply (half_sq_derive (fun _ => ln m) (fun s => snd (ln_params m s))); [|exact Dz]. apply (is_derive_const (ln m)). }
  apply (quot_derive (ln x) (fun s => fst (ln_params m s)) (fun s => snd (ln_params m s))); [exact Dl|exact Dz|fold z; lra].
Qed.
