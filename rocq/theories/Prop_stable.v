(** Stability (C99): small errors of the covariance matrix do not change the estimates. *)
From Coq Require Import Lra Sorted Permutation.
From Verif Require Import Base_Np Base_Trig Base_Lin S_model M_utils S_utils P_utils M_sources S_sources P_sources M_array S_array P_array P_array2 P_array3 M_designs S_designs P_designs M_coarray S_coarray P_coarray P_coarray2 P_model
  M_grid S_grid P_grid M_core P_core P_core2 M_sparse M_subspace S_subspace P_subspace P_subspace2 P_subspace5 M_pipeline S_pipeline Prop_subspace P_pipeline P_pipeline4 P_beam Prop_pipeline S_stable P_stable P_stable2 P_stable3 P_stable4 P_stable5.
From Verif Require P_oracles P_gauss Prop_designs Prop_grid Prop_coarray Prop_coarray2.
Open Scope nat_scope.

(** *** eigenvalues and noise subspace *)
(** every eigenvalue moves by at most the distance of the two matrices *)
Theorem C99_eigenvalues : forall eigh (Rm Rm' : cmat), eigh_contract (nr Rm) eigh -> hermitian Rm -> hermitian Rm' -> nr Rm' = nr Rm ->
  exists w E w' E', eigh Rm = Ok (w, E) /\ eigh Rm' = Ok (w', E') /\ forall i, i < nr Rm -> (Rabs (nth i w 0 - nth i w' 0) <= distance Rm Rm')%R.
Proof.
  intros eigh Rm Rm' EC H H' N. destruct (EC Rm H (le_n _)) as (w & E & EE & OE). destruct (EC Rm' H' ltac:(lia)) as (w' & E' & EE' & OE').
  exists w, E, w', E'. split; [exact EE|]. split; [exact EE'|]. intros i Hi. now apply (weyl Rm Rm' w E w' E').
Qed.
(** sources seen by a full-rank steering matrix always stand out by some positive amount *)
Theorem C99_sources_stand_out : forall (Rm A P : cmat) s, exact_cov Rm A P s -> inj A -> pd P -> 1 <= nc A < nr A -> exists delta, (0 < delta)%R /\ signal_floor A P delta.
Proof.
  intros Rm A P s HX HA HP Hk. destruct (P_oracles.eigh_ref_contract (nr Rm) Rm (exact_herm _ _ _ _ HX (proj1 HP)) (le_n _)) as (w & E & _ & OE).
  destruct (floor_exists Rm A P s w E HX HA HP OE Hk) as (F1 & F2). eexists. split; [exact F2 | exact F1].
Qed.
(** the noise subspace tilts by at most eps / (delta - eps): the length of the projection of any vector onto it changes by no more than that (relatively) *)
Theorem C99_noise_subspace : forall eigh (Rm Rm' A P : cmat) s delta, exact_cov Rm A P s -> inj A -> pd P -> 1 <= nc A < nr A -> eigh_contract (nr A) eigh ->
  hermitian Rm' -> nr Rm' = nr A -> signal_floor A P delta -> (distance Rm Rm' < delta)%R ->
  exists En En', get_noise_subspace eigh Rm (Z.of_nat (nc A)) = Ok En /\ get_noise_subspace eigh Rm' (Z.of_nat (nc A)) = Ok En' /\
    forall b, (Rabs (sqrt (proj_power En' b) - sqrt (proj_power En b)) <= tilt (distance Rm Rm') delta * vlen (nr A) b)%R.
Proof.
  intros eigh Rm Rm' A P s delta HX HA HP Hk EC HH N FL D. destruct (ex_dims Rm A P s HX) as (D1 & D2).
  destruct (EC Rm (exact_herm _ _ _ _ HX (proj1 HP)) ltac:(lia)) as (w & E & EE & OE). destruct (EC Rm' HH ltac:(lia)) as (w' & E' & EE' & OE'). pose proof OE as (_ & x1 & x2 & _).
  destruct (noise_power eigh Rm (nc A) w E EE x1 x2 ltac:(lia)) as (En & EN & N1 & N2 & N3).
  destruct (music_close eigh Rm Rm' A P s w E w' E' delta HX HA HP Hk OE HH N EE' OE' FL D) as (En' & EN' & _ & CL).
  exists En, En'. split; [exact EN|]. split; [exact EN'|]. intros b. rewrite N3, D1. apply CL.
Qed.

(** *** MUSIC with an explicit error budget *)
(** a direction of a source stays higher than a direction at distance eta from all sources as long as the tilt is below eta over the total length of the two steering vectors *)
Theorem C99_music_threshold : forall eigh (Rm Rm' A P : cmat) s delta (B : cmat), exact_cov Rm A P s -> inj A -> pd P -> 1 <= nc A < nr A -> nr B = nr A -> eigh_contract (nr A) eigh ->
  hermitian Rm' -> nr Rm' = nr A -> signal_floor A P delta -> (distance Rm Rm' < delta)%R ->
  exists En sp, get_noise_subspace eigh Rm' (Z.of_nat (nc A)) = Ok En /\ f_music B En = Ok sp /\ List.length sp = nc B /\
    forall i j eta, i < nc B -> j < nc B -> in_span A (col B i) -> away A (col B j) eta ->
      (tilt (distance Rm Rm') delta * (vlen (nr A) (col B i) + vlen (nr A) (col B j)) < eta)%R -> above sp i j.
Proof.
  intros eigh Rm Rm' A P s delta B HX HA HP Hk HB EC HH N FL D. destruct (EC Rm' HH ltac:(lia)) as (w' & E' & EE' & OE').
  destruct (music_order eigh Rm Rm' A P s w' E' delta B HX HA HP Hk HB HH N EE' OE' FL D) as (En & sp & X1 & X2 & X3 & X4). exists En, sp. repeat (split; [assumption|]).
  intros i j eta Hi Hj Si Aj T. apply above_olt. exact (X4 i j eta Hi Hj Si Aj T).
Qed.
(** complete estimates on any array and grid within the error budget *)
Theorem C99_music_recovery : forall eigh (e : estimator cmat) (h : lheap) (Rm Rm' A B P : cmat) (s delta eta : R) (truth : list (list nat)) (o : options),
  let g := e_grid e in let shape := sg_shape g in let k := nc A in
  est_ok e h -> e_atom e g = Ok B -> nr B = nr A -> nc B = sg_size g -> exact_cov Rm A P s -> inj A -> pd P -> 1 <= k < nr A -> eigh_contract (nr A) eigh ->
  NoDup truth -> List.length truth = k -> (forall p, In p truth -> in_shape shape p /\ in_span A (col B (ravel shape p))) ->
  (forall p, in_shape shape p -> ~ In p truth -> away A (col B (ravel shape p)) eta) ->
  (forall p q, In p truth -> In q truth -> adjacent p q -> p = q) ->
  finds (e_pf e) shape truth -> (forall sp p, List.length sp = prod_list shape -> In p (e_pf e shape sp) -> in_shape shape p) -> (forall sp, NoDup (e_pf e shape sp)) ->
  (forall v, is_argsort v (e_argsort e v)) -> o_refine o = false ->
  hermitian Rm' -> nr Rm' = nr A -> signal_floor A P delta -> (distance Rm Rm' < delta)%R ->
  (forall i j, i < nc B -> j < nc B -> (tilt (distance Rm Rm') delta * (vlen (nr A) (col B i) + vlen (nr A) (col B j)) < eta)%R) ->
  exists sp est chosen e' h', music_estimate eigh (nr A) e h Rm' (Z.of_nat k) o = (Ok (Outcome true (Some est) (if o_spectrum o then Some sp else None)), e', h') /\
    Permutation chosen truth /\ StronglySorted le (map (ravel shape) chosen) /\ buf h' est = map (grid_point g) chosen.
Proof.
  intros eigh e h Rm Rm' A B P s delta eta truth o g shape k HO HB B1 B2 HX HA HP Hk EC ND TL TS TA AD PF PS PN HS Hr HH N FL D T.
  destruct (C99_music_threshold eigh Rm Rm' A P s delta B HX HA HP Hk B1 EC HH N FL D) as (En & sp & X1 & X2 & X3 & X4).
  destruct (EC Rm' HH ltac:(lia)) as (w2 & E2 & EE2 & OE2). pose proof OE2 as (_ & Z1 & Z2 & _).
  destruct (C58_estimate_uses_spectrum eigh (nr A) e h Rm' k o w2 E2 N Hk EE2 ltac:(congruence) ltac:(congruence)) as (En2 & W1 & W2). fold k in X1. rewrite X1 in W1. injection W1 as <-.
  assert (PV : forall p, in_shape shape p -> ravel shape p < nc B) by (intros p Hp; rewrite B2; now apply ravel_lt).
  destruct (dominant_recovery e h (fun A0 => let! l := f_music A0 En in Ok (embed_inf l)) B (embed_inf sp) truth o) as (est & chosen & e' & h' & R1 & R2 & R3 & R4); try assumption.
  - now rewrite X2.
  - rewrite embed_length. fold g. congruence.
  - lia.
  - intros p Ip. now apply TS.
  - intros p q Ip Iq Nq. unfold at_idx. pose proof (PV p (proj1 (TS p Ip))) as Vp. pose proof (PV q Iq) as Vq. apply embed_order; [rewrite X3; exact Vq | rewrite X3; exact Vp|]. apply above_olt. apply (X4 _ _ eta Vp Vq); [now apply TS | now apply TA | now apply T].
  - rewrite TL in R1. exists (embed_inf sp), est, chosen, e', h'. split; [|auto]. rewrite W2. exact R1.
Qed.

(** *** comparisons between spectrum values survive every sufficiently small error *)
Theorem C99_music_order : forall (Rm U : cmat) k w E, hermitian Rm -> nr U = nr Rm -> 1 <= k < nr Rm -> eigh_ok Rm w E -> (nth (nr Rm - k - 1) w 0 < nth (nr Rm - k) w 0)%R ->
  exists eps0, (0 < eps0)%R /\ forall eigh Rm' B, B ==m U -> eigh_contract (nr Rm) eigh -> hermitian Rm' -> nr Rm' = nr Rm -> (distance Rm Rm' < eps0)%R ->
    exists En En' sp sp', get_noise_subspace eigh Rm (Z.of_nat k) = Ok En /\ get_noise_subspace eigh Rm' (Z.of_nat k) = Ok En' /\ f_music B En = Ok sp /\ f_music B En' = Ok sp' /\
      List.length sp = nc B /\ List.length sp' = nc B /\ forall i j, i < nc B -> j < nc B -> above sp i j -> above sp' i j.
Proof. exact music_stable. Qed.
Theorem C99_bartlett_order : forall (Rm U : cmat), nr Rm = nc Rm -> nr U = nr Rm ->
  exists eps0, (0 < eps0)%R /\ forall Rm' B, B ==m U -> nr Rm' = nr Rm -> nc Rm' = nr Rm -> (distance Rm Rm' < eps0)%R ->
    exists sp sp', f_bartlett B Rm = Ok sp /\ f_bartlett B Rm' = Ok sp' /\ List.length sp = nc B /\ List.length sp' = nc B /\
      forall i j, i < nc B -> j < nc B -> (nth j sp 0 < nth i sp 0)%R -> (nth j sp' 0 < nth i sp' 0)%R.
Proof. exact bartlett_stable. Qed.
Theorem C99_mvdr_order : forall (Rm U : cmat), pd Rm -> nr U = nr Rm -> (forall j, j < nc U -> exists i, i < nr U /\ ent U i j <> RtoC 0) ->
  exists eps0, (0 < eps0)%R /\ forall lstsq Rm' B, B ==m U -> lstsq_contract lstsq -> hermitian Rm' -> nr Rm' = nr Rm -> (distance Rm Rm' < eps0)%R ->
    exists sp sp', f_mvdr lstsq B Rm = Ok sp /\ f_mvdr lstsq B Rm' = Ok sp' /\ List.length sp = nc B /\ List.length sp' = nc B /\
      (forall i, i < nc B -> nth i sp' None <> None) /\ forall i j, i < nc B -> j < nc B -> above sp i j -> above sp' i j.
Proof. exact mvdr_stable. Qed.

(** *** error bounds for the beamformer spectra *)
Theorem C99_bartlett_values : forall (B Rm Rm' : cmat), nr B = nr Rm -> nr Rm = nc Rm -> nr Rm' = nr Rm -> nc Rm' = nr Rm ->
  exists sp sp', f_bartlett B Rm = Ok sp /\ f_bartlett B Rm' = Ok sp' /\ List.length sp = nc B /\ List.length sp' = nc B /\
    forall j, j < nc B -> (Rabs (nth j sp 0 - nth j sp' 0) <= distance Rm Rm' * vnorm2 (nr Rm) (col B j))%R.
Proof.
  intros B Rm Rm' HB S1 N1 N2. do 2 eexists. split; [apply bartlett_value; assumption|]. split; [apply bartlett_value; congruence|]. split; [now rewrite map_length, seq_length|]. split; [now rewrite map_length, seq_length|].
  intros j Hj. rewrite !nth_map_seq by exact Hj. now apply qform_close.
Qed.
Theorem C99_mvdr_values : forall lstsq (B Rm Rm' : cmat) lam, lstsq_contract lstsq -> hermitian Rm -> hermitian Rm' -> nr Rm' = nr Rm -> nr B = nr Rm ->
  (forall j, j < nc B -> exists i, i < nr B /\ ent B i j <> RtoC 0) -> (forall x, (lam * vnorm2 (nr Rm) x <= Re (qform Rm x))%R) -> (distance Rm Rm' < lam)%R ->
  exists sp sp', f_mvdr lstsq B Rm = Ok sp /\ f_mvdr lstsq B Rm' = Ok sp' /\ List.length sp = nc B /\ List.length sp' = nc B /\
    forall j, j < nc B -> exists v v', nth j sp None = Some v /\ nth j sp' None = Some v' /\ (0 < v)%R /\ (0 < v')%R /\
      ((1 - distance Rm Rm' / lam) * v <= v' <= (1 + distance Rm Rm' / lam) * v)%R.
Proof. intros lstsq B Rm Rm' lam LC H1 H2 N1 N2 NZ FL D. exact (mvdr_close lstsq B Rm Rm' lam LC H1 H2 N1 N2 NZ FL D). Qed.

(** *** complete programs *)
Theorem C99_music_on_ula : forall find_peaks argsort n d name lam u angles dt caching h0 g sg e0 h1 truth (A P Rm : cmat) s,
  mk_ULA (Z.of_nat n) (D0Scalar d) name no_kwargs = Ok g -> mk_grid_axes G1D [angles] dt u = Ok sg ->
  new_estimator (gd_array g) lam sg (find_peaks_simple find_peaks) argsort caching h0 = Ok (e0, h1) ->
  scipy_find_peaks find_peaks -> (forall x, is_argsort x (argsort x)) ->
  (0 < d)%R -> (0 < lam)%R -> unambiguous d lam u angles -> separated (List.length angles) truth -> 1 <= List.length truth < n ->
  steering_matrix (gd_array g) (FF1 (at_positions angles truth) u) lam false "all" true = Ok (Flat A, []) ->
  exact_cov Rm A P s -> pd P ->
  exists eps0, (0 < eps0)%R /\ forall eigh e h Rm' o, eigh_contract n eigh -> music_reach eigh n e0 h1 e h -> hermitian Rm' -> nr Rm' = n -> (distance Rm Rm' < eps0)%R -> o_refine o = false ->
    exists sp est e' h', music_estimate eigh n e h Rm' (Z.of_nat (List.length truth)) o = (Ok (Outcome true (Some est) (if o_spectrum o then Some sp else None)), e', h') /\
      buf h' est = map (fun a => [a]) (at_positions angles truth).
Proof.
  intros fp asort n d nm lam u angles dt c h0 g sg e0 h1 truth A P Rm s Eg Es HN FP AS Hd Hl U SEP Hk HA HX HP.
  apply grid_axes_inv in Es. subst sg. destruct (estimator_valid _ _ _ _ _ _ _ _ _ _ _ HN) as (K & V). destruct (ULA_facts _ _ _ _ Eg) as (PL & Pe & I & DT & _).
  apply (music_ula_stable fp asort g n d lam u angles dt c h0 e0 h1 truth A P s Rm); assumption.
Qed.
Theorem C99_bartlett_on_ula : forall find_peaks argsort n d name lam u angles dt caching h0 g sg e0 h1 t (A P Rm : cmat) s,
  mk_ULA (Z.of_nat n) (D0Scalar d) name no_kwargs = Ok g -> mk_grid_axes G1D [angles] dt u = Ok sg ->
  new_estimator (gd_array g) lam sg (find_peaks_simple find_peaks) argsort caching h0 = Ok (e0, h1) ->
  scipy_find_peaks find_peaks -> (forall x, is_argsort x (argsort x)) ->
  (0 < d)%R -> (0 < lam)%R -> unambiguous d lam u angles -> 1 < n -> 0 < t -> S t < List.length angles ->
  steering_matrix (gd_array g) (FF1 [nth t angles 0%R] u) lam false "all" true = Ok (Flat A, []) -> exact_cov Rm A P s -> pd P -> (0 <= s)%R ->
  exists eps0, (0 < eps0)%R /\ forall e h Rm' o, reach (bartlett_estimate n) e0 h1 e h -> nr Rm' = n -> nc Rm' = n -> (distance Rm Rm' < eps0)%R -> o_refine o = false ->
    exists sp est e' h', bartlett_estimate n e h Rm' 1 o = (Ok (Outcome true (Some est) (if o_spectrum o then Some sp else None)), e', h') /\ buf h' est = [[nth t angles 0%R]].
Proof.
  intros fp asort n d nm lam u angles dt c h0 g sg e0 h1 t A P Rm s Eg Es HN FP AS Hd Hl U Hn T1 T2 HA HX HP Hs.
  apply grid_axes_inv in Es. subst sg. destruct (estimator_valid _ _ _ _ _ _ _ _ _ _ _ HN) as (K & V). destruct (ULA_facts _ _ _ _ Eg) as (PL & Pe & I & DT & _).
  apply (bartlett_ula_stable fp asort g n d lam u angles dt c h0 h1 e0 t A P s Rm); try assumption. auto.
Qed.
Theorem C99_mvdr_on_ula : forall find_peaks argsort n d name lam u angles dt caching h0 g sg e0 h1 t (A P Rm : cmat) s,
  mk_ULA (Z.of_nat n) (D0Scalar d) name no_kwargs = Ok g -> mk_grid_axes G1D [angles] dt u = Ok sg ->
  new_estimator (gd_array g) lam sg (find_peaks_simple find_peaks) argsort caching h0 = Ok (e0, h1) ->
  scipy_find_peaks find_peaks -> (forall x, is_argsort x (argsort x)) ->
  (0 < d)%R -> (0 < lam)%R -> unambiguous d lam u angles -> 1 < n -> 0 < t -> S t < List.length angles ->
  steering_matrix (gd_array g) (FF1 [nth t angles 0%R] u) lam false "all" true = Ok (Flat A, []) -> exact_cov Rm A P s -> pd P -> (0 < s)%R ->
  exists eps0, (0 < eps0)%R /\ forall lstsq e h Rm' o, lstsq_contract lstsq -> reach (mvdr_estimate lstsq n) e0 h1 e h -> hermitian Rm' -> nr Rm' = n -> (distance Rm Rm' < eps0)%R -> o_refine o = false ->
    exists sp est e' h', mvdr_estimate lstsq n e h Rm' 1 o = (Ok (Outcome true (Some est) (if o_spectrum o then Some sp else None)), e', h') /\ buf h' est = [[nth t angles 0%R]].
Proof.
  intros fp asort n d nm lam u angles dt c h0 g sg e0 h1 t A P Rm s Eg Es HN FP AS Hd Hl U Hn T1 T2 HA HX HP Hs.
  apply grid_axes_inv in Es. subst sg. destruct (estimator_valid _ _ _ _ _ _ _ _ _ _ _ HN) as (K & V). destruct (ULA_facts _ _ _ _ Eg) as (PL & Pe & I & DT & _).
  apply (mvdr_ula_stable fp asort g n d lam u angles dt c h0 h1 e0 t A P s Rm); try assumption. auto.
Qed.

(** *** coarrays *)
(** redundancy averaging never amplifies an error: no entry of the virtual covariance moves by more than the distance of the two physical covariances *)
Theorem C99_coarray_entries : forall g l w0 calls (R1 R2 : cmat) h, grid_1d g l -> mk_WeightFunction1D g = Ok w0 -> l <> [] -> first_hole l h ->
  nr R1 = List.length l -> nc R1 = List.length l -> nr R2 = List.length l -> nc R2 = List.length l ->
  exists D1 D2, transform (Acm g (after w0 calls)) R1 "da" = Ok D1 /\ transform (Acm g (after w0 calls)) R2 "da" = Ok D2 /\
    (forall r c, r < nr D1 -> c < nc D1 -> (Cmod (ent D1 r c - ent D2 r c)%C <= distance R1 R2)%R) /\ (distance D1 D2 <= IZR h * distance R1 R2)%R.
Proof.
  intros g l w0 calls R1 R2 h Hg Hw Nl FH N1 N2 N3 N4.
  destruct (Prop_coarray.C39_da g l _ w0 calls R1 h Hg Hw eq_refl Nl FH N1 N2) as (D1 & E1 & _). destruct (Prop_coarray.C39_da g l _ w0 calls R2 h Hg Hw eq_refl Nl FH N3 N4) as (D2 & E2 & _).
  destruct (da_close g l w0 calls R1 R2 D1 D2 h Hg Hw Nl FH N1 N2 N3 N4 E1 E2) as (_ & _ & _ & _ & X1 & X2). exists D1, D2. auto.
Qed.
Theorem C99_coarray_music : forall find_peaks argsort g l d w0 calls name m v lam u angles dt caching h0 sg e0 h1 truth (A Rm : cmat) p sigma method,
  places_1d g l d -> gd_d0 g = [d] -> NoDup l -> ar_perts (gd_array g) = [] -> scalar_isotropic (gd_array g) ->
  mk_WeightFunction1D g = Ok w0 -> first_hole l (Z.of_nat m) -> get_virtual_ula (Acm g (after w0 calls)) name = Ok v ->
  mk_grid_axes G1D [angles] dt u = Ok sg ->
  new_estimator (gd_array v) lam sg (find_peaks_simple find_peaks) argsort caching h0 = Ok (e0, h1) ->
  scipy_find_peaks find_peaks -> (forall x, is_argsort x (argsort x)) ->
  (0 < d)%R -> (0 < lam)%R -> unambiguous d lam u angles ->
  separated (List.length angles) truth -> 1 <= List.length truth < m ->
  steering_matrix (gd_array g) (FF1 (at_positions angles truth) u) lam false "all" true = Ok (Flat A, []) ->
  Rm ==m model_cov A p sigma -> (forall k, k < List.length truth -> (0 < p k)%R) -> (0 <= sigma)%R ->
  method = "da"%string \/ method = "ss"%string ->
  exists eps0, (0 < eps0)%R /\ forall eigh e h Rm' o, eigh_contract m eigh -> music_reach eigh m e0 h1 e h -> hermitian Rm' -> nr Rm' = List.length l -> (distance Rm Rm' < eps0)%R -> o_refine o = false ->
    exists D sp est e' h', transform (Acm g (after w0 calls)) Rm' method = Ok D /\
      music_estimate eigh m e h D (Z.of_nat (List.length truth)) o = (Ok (Outcome true (Some est) (if o_spectrum o then Some sp else None)), e', h') /\
      buf h' est = map (fun a => [a]) (at_positions angles truth).
Proof.
  intros fp asort g l d w0 calls nm m v lam u angles dt c h0 sg e0 h1 truth A Rm p sigma method PL D0 ND Pe Iso Hw FH Ev Es HN FP AS Hd Hl U SEP Hk HA HRm Hp Hs HM.
  apply grid_axes_inv in Es. subst sg. now apply (coarray_music_stable fp asort g l d w0 calls nm m v lam u angles dt c h0 e0 h1 truth A Rm p sigma method).
Qed.

(** *** consistency *)
(** if the covariance estimates converge to the true covariance, then from some point on MUSIC returns exactly the true directions *)
Theorem C99_consistency : forall find_peaks argsort n d name lam u angles dt caching h0 g sg e0 h1 truth (A P Rm : cmat) s (Rs : nat -> cmat),
  mk_ULA (Z.of_nat n) (D0Scalar d) name no_kwargs = Ok g -> mk_grid_axes G1D [angles] dt u = Ok sg ->
  new_estimator (gd_array g) lam sg (find_peaks_simple find_peaks) argsort caching h0 = Ok (e0, h1) ->
  scipy_find_peaks find_peaks -> (forall x, is_argsort x (argsort x)) ->
  (0 < d)%R -> (0 < lam)%R -> unambiguous d lam u angles -> separated (List.length angles) truth -> 1 <= List.length truth < n ->
  steering_matrix (gd_array g) (FF1 (at_positions angles truth) u) lam false "all" true = Ok (Flat A, []) ->
  exact_cov Rm A P s -> pd P -> (forall i, hermitian (Rs i) /\ nr (Rs i) = n) -> converges Rs Rm ->
  exists N, forall i eigh e h o, N <= i -> eigh_contract n eigh -> music_reach eigh n e0 h1 e h -> o_refine o = false ->
    exists sp est e' h', music_estimate eigh n e h (Rs i) (Z.of_nat (List.length truth)) o = (Ok (Outcome true (Some est) (if o_spectrum o then Some sp else None)), e', h') /\
      buf h' est = map (fun a => [a]) (at_positions angles truth).
Proof.
  intros fp asort n d nm lam u angles dt c h0 g sg e0 h1 truth A P Rm s Rs Eg Es HN FP AS Hd Hl U SEP Hk HA HX HP HH CV.
  destruct (C99_music_on_ula fp asort n d nm lam u angles dt c h0 g sg e0 h1 truth A P Rm s Eg Es HN FP AS Hd Hl U SEP Hk HA HX HP) as (eps0 & He & ST). destruct (CV eps0 He) as (N & HNn).
  exists N. intros i eigh e h o Hi EC HR Hr. destruct (HH i) as (X1 & X2). apply ST; try assumption. now apply HNn.
Qed.
(** the same for coarray MUSIC with more sources than sensors *)
Theorem C99_coarray_consistency : forall find_peaks argsort g l d w0 calls name m v lam u angles dt caching h0 sg e0 h1 truth (A Rm : cmat) p sigma method (Rs : nat -> cmat),
  places_1d g l d -> gd_d0 g = [d] -> NoDup l -> ar_perts (gd_array g) = [] -> scalar_isotropic (gd_array g) ->
  mk_WeightFunction1D g = Ok w0 -> first_hole l (Z.of_nat m) -> get_virtual_ula (Acm g (after w0 calls)) name = Ok v ->
  mk_grid_axes G1D [angles] dt u = Ok sg ->
  new_estimator (gd_array v) lam sg (find_peaks_simple find_peaks) argsort caching h0 = Ok (e0, h1) ->
  scipy_find_peaks find_peaks -> (forall x, is_argsort x (argsort x)) ->
  (0 < d)%R -> (0 < lam)%R -> unambiguous d lam u angles ->
  separated (List.length angles) truth -> 1 <= List.length truth < m ->
  steering_matrix (gd_array g) (FF1 (at_positions angles truth) u) lam false "all" true = Ok (Flat A, []) ->
  Rm ==m model_cov A p sigma -> (forall k, k < List.length truth -> (0 < p k)%R) -> (0 <= sigma)%R ->
  method = "da"%string \/ method = "ss"%string -> (forall i, hermitian (Rs i) /\ nr (Rs i) = List.length l) -> converges Rs Rm ->
  exists N, forall i eigh e h o, N <= i -> eigh_contract m eigh -> music_reach eigh m e0 h1 e h -> o_refine o = false ->
    exists D sp est e' h', transform (Acm g (after w0 calls)) (Rs i) method = Ok D /\
      music_estimate eigh m e h D (Z.of_nat (List.length truth)) o = (Ok (Outcome true (Some est) (if o_spectrum o then Some sp else None)), e', h') /\
      buf h' est = map (fun a => [a]) (at_positions angles truth).
Proof.
  intros fp asort g l d w0 calls nm m v lam u angles dt c h0 sg e0 h1 truth A Rm p sigma method Rs PL D0 ND Pe Iso Hw FH Ev Es HN FP AS Hd Hl U SEP Hk HA HRm Hp Hs HM HH CV.
  destruct (C99_coarray_music fp asort g l d w0 calls nm m v lam u angles dt c h0 sg e0 h1 truth A Rm p sigma method PL D0 ND Pe Iso Hw FH Ev Es HN FP AS Hd Hl U SEP Hk HA HRm Hp Hs HM) as (eps0 & He & ST).
  destruct (CV eps0 He) as (N & HNn). exists N. intros i eigh e h o Hi EC HR Hr. destruct (HH i) as (X1 & X2). apply ST; try assumption. now apply HNn.
Qed.

(** ** Non-vacuity *)
(** a matrix with one diagonal entry off by x *)
Definition off_by (x : R) (Rm : cmat) : cmat := Mat (nr Rm) (nc Rm) (fun i j => if Nat.eqb i 0 && Nat.eqb j 0 then (ent Rm i j + RtoC x)%C else ent Rm i j).
Lemma off_by_herm x Rm : hermitian Rm -> hermitian (off_by x Rm).
Proof.
  intros (S1 & H). split; [exact S1|]. intros i j Hi Hj. cbn [off_by nr ent] in *. rewrite (andb_comm (Nat.eqb j 0)). destruct (Nat.eqb i 0 && Nat.eqb j 0); [rewrite Cplus_conj, Cconj_RtoC|]; now rewrite <- (H i j).
Qed.
Lemma off_by_distance x Rm : (0 < x)%R -> 0 < nr Rm -> 0 < nc Rm -> distance Rm (off_by x Rm) = x.
Proof.
  intros Hx H1 H2. unfold distance. transitivity (sqrt (Rsqr x)); [f_equal | apply sqrt_Rsqr; lra]. rewrite (rsum_single _ _ 0); [|exact H1 | intros i Hi Ni; apply rsum_0; intros j Hj; apply Cnorm2_0; cbn [off_by ent]; destruct (Nat.eqb_spec i 0); [contradiction|]; cbn [andb]; ring].
  rewrite (rsum_single _ _ 0); [|exact H2 | intros j Hj Nj; apply Cnorm2_0; cbn [off_by ent Nat.eqb]; destruct (Nat.eqb_spec j 0); [contradiction|]; cbn [andb]; ring].
  cbn [off_by ent Nat.eqb andb]. replace (ent Rm 0 0 - (ent Rm 0 0 + RtoC x))%C with (RtoC (- x)) by (rewrite RtoC_opp; ring). unfold Cnorm2, Rsqr. cbn. ring.
Qed.
(** three sensors, two correlated sources on the default grid of 180 points: an inexact covariance gives the exact directions *)
Example C99_example : exists g l e0 h1 (A P Rm Rm' : cmat) x est e' h',
  mk_ULA 3 (D0Scalar 1) None no_kwargs = Ok g /\ mk_grid1d None None 180 "deg" = Ok (SGrid G1D [vec1 l] "deg" DFloat) /\
  new_estimator (gd_array g) 2 (SGrid G1D [vec1 l] "deg" DFloat) (find_peaks_simple peaks_ref) Prop_subspace.argsort_R true [] = Ok (e0, h1) /\
  steering_matrix (gd_array g) (FF1 (at_positions l [30; 100]) "deg") 2 false "all" true = Ok (Flat A, []) /\ pd P /\ exact_cov Rm A P 1 /\
  (0 < x)%R /\ hermitian Rm' /\ distance Rm Rm' = x /\
  music_estimate P_oracles.eigh_ref 3 e0 h1 Rm' 2 (Opts false false 10 3) = (Ok (Outcome true (Some est) None), e', h') /\
  buf h' est = map (fun a => [a]) (at_positions l [30; 100]).
Proof.
  destruct C83_example as (g & l & e0 & h1 & A & P & Rm & sp & est & e' & h' & X1 & X2 & X3 & X4 & X5 & _ & X7 & _).
  assert (K : known_unit "deg") by (right; left; reflexivity). destruct (default_unambiguous 1 2 "deg" 180 l K ltac:(lra) X2) as (_ & U). destruct (ULA_facts _ _ _ _ X1) as (PL & Q1 & Q2 & _).
  assert (Ll : List.length l = 180). { destruct (Prop_grid.C43_uniform_1d None None 180 "deg") as (Y & _). destruct (Y K) as (l' & El & Ll & _). change (Z.of_nat 180) with 180%Z in El. rewrite X2 in El. injection El as ->. exact Ll. }
  destruct (C99_music_on_ula peaks_ref Prop_subspace.argsort_R 3 1 None 2 "deg" l DFloat true [] g _ e0 h1 [30; 100] A P Rm 1 X1 eq_refl X3 peaks_ref_ok Prop_subspace.argsort_R_ok ltac:(lra) ltac:(lra) U) as (eps0 & He & ST); try assumption.
  - rewrite Ll. split; [repeat (constructor; [|repeat (constructor; [lia|]); constructor]); constructor | repeat (constructor; [lia|]); constructor].
  - cbn; lia.
  - destruct (ex_dims Rm A P 1 X7) as (D1 & D2). destruct (estimator_valid _ _ _ _ _ _ _ _ _ _ _ X3) as (_ & V).
    assert (VT : valid_sources (FF1 (at_positions l [30; 100]) "deg")) by (rewrite Forall_forall in V; split; [exact K|]; repeat (constructor; [apply V, nth_In; lia|]); constructor).
    destruct (response_1d g _ 1 _ 2 A PL Q1 Q2 VT eq_refl X4) as (N & _). rewrite ULA_indices_length in N. change (Z.to_nat (Z.of_nat 3)) with 3 in N.
    pose proof (exact_herm _ _ _ _ X7 (proj1 X5)) as HR. assert (DS : distance Rm (off_by (eps0 / 2) Rm) = (eps0 / 2)%R) by (apply off_by_distance; [lra | lia | lia]).
    destruct (ST P_oracles.eigh_ref e0 h1 (off_by (eps0 / 2) Rm) (Opts false false 10 3) (P_oracles.eigh_ref_contract 3) ltac:(constructor)) as (sp2 & est2 & e2 & h2 & R1 & R2); [now apply off_by_herm | change (nr (off_by (eps0 / 2) Rm)) with (nr Rm); rewrite D1, N; reflexivity | rewrite DS; lra | reflexivity|].
    exists g, l, e0, h1, A, P, Rm, (off_by (eps0 / 2) Rm), (eps0 / 2)%R, est2, e2, h2. repeat (split; [assumption || lra|]). split; [now apply off_by_herm|]. split; [exact DS|]. split; [exact R1 | exact R2].
Qed.
(** the error budget, in numbers: two sensors, one source of power 1 in noise of power 1, a covariance off by 1/10: the source direction (1, 1) stays above (1, -1) *)
Example C99_threshold_example : exists (A B P Rm Rm' : cmat), exact_cov Rm A P 1 /\ inj A /\ pd P /\ 1 <= nc A < nr A /\ nr B = nr A /\ hermitian Rm' /\ nr Rm' = nr A /\
  signal_floor A P 2 /\ distance Rm Rm' = (1 / 10)%R /\ in_span A (col B 0) /\ away A (col B 1) (sqrt 2) /\
  (tilt (distance Rm Rm') 2 * (vlen (nr A) (col B 0) + vlen (nr A) (col B 1)) < sqrt 2)%R.
Proof.
  set (A := (Mat 2 1 (fun _ _ => RtoC 1) : cmat)). set (P := (mdiag 1 (fun _ => RtoC 1) : cmat)). set (B := (Mat 2 2 (fun i j => if Nat.eqb i 1 && Nat.eqb j 1 then RtoC (-1) else RtoC 1) : cmat)).
  set (Rm := A *m P *m mher A +m mscal (RtoC 1) (mid (nr A))). exists A, B, P, Rm, (off_by (1 / 10) Rm).
  assert (HX : exact_cov Rm A P 1) by (split; [|split]; reflexivity). assert (HP : pd P) by (apply (P_perf5.pd_mdiag 1 (fun _ => 1%R)); intros; lra).
  assert (DS : distance Rm (off_by (1 / 10) Rm) = (1 / 10)%R) by (apply off_by_distance; [lra | cbn; lia | cbn; lia]).
  split; [exact HX|]. split. { intros x Hx i Hi. cbn in Hi. replace i with 0 by lia. specialize (Hx 0 ltac:(cbn; lia)). unfold mvec in Hx. cbn in Hx. rewrite <- Hx. ring. }
  split; [exact HP|]. split; [cbn; lia|]. split; [reflexivity|]. split; [apply off_by_herm, (exact_herm _ _ _ _ HX (proj1 HP))|]. split; [reflexivity|].
  split.
  { intros y. apply Req_le. unfold vnorm2, qform, mvec, Cnorm2. cbn. destruct (y 0) as [a b]. cbn. ring. }
  split; [exact DS|]. split. { exists (fun _ => RtoC 1). intros i Hi. cbn in Hi. unfold mvec, col. destruct i as [|[|i]]; [| |lia]; cbn; ring. }
  split.
  { intros x. unfold vlen. apply sqrt_le_1_alt. unfold vnorm2, mvec, col, Cnorm2. cbn. destruct (x 0) as [a b]. cbn. pose proof (pow2_ge_0 a). pose proof (pow2_ge_0 b). lra. }
  rewrite DS. assert (V : forall j, j < 2 -> vlen (nr A) (col B j) = sqrt 2). { intros j Hj. unfold vlen. f_equal. unfold vnorm2, col, Cnorm2. destruct j as [|[|j]]; [| |lia]; cbn; ring. }
  rewrite !V by lia. pose proof (sqrt_lt_R0 2 ltac:(lra)) as S2. unfold tilt. lra.
Qed.
Print Assumptions C99_eigenvalues.
Print Assumptions C99_sources_stand_out.
Print Assumptions C99_noise_subspace.
Print Assumptions C99_music_threshold.
Print Assumptions C99_music_recovery.
Print Assumptions C99_music_order.
Print Assumptions C99_bartlett_order.
Print Assumptions C99_mvdr_order.
Print Assumptions C99_bartlett_values.
Print Assumptions C99_mvdr_values.
Print Assumptions C99_music_on_ula.
Print Assumptions C99_bartlett_on_ula.
Print Assumptions C99_mvdr_on_ula.
Print Assumptions C99_coarray_entries.
Print Assumptions C99_coarray_music.
Print Assumptions C99_consistency.
Print Assumptions C99_coarray_consistency.
