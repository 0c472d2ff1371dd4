(** C65, C66: maximum-likelihood estimators as objects; optimisation variables and bounds *)
From Verif Require Import Base_Np M_utils M_sources M_array M_designs M_coarray M_heap M_grid M_core M_ml S_utils S_sources S_ml P_heap P_sources3 P_subspace2 P_ml P_ml2.
Open Scope nat_scope.

(** C65.  For every history of creations, row assignments, reads, estimate and get_last_estimates calls (every optimiser
    behaviour), the client sees what it would see if placements were plain values: no call and no assignment to one
    placement changes any other placement or the stored estimate. *)
Theorem C65_no_sharing : forall env acts,
  fst (ml_run env (MlW [] [] ml_init) acts) = fst (v_run env (VW [] (VSt None None)) acts).
Proof. intros env acts. apply ml_run_rel. repeat split; constructor. Qed.
(** estimate leaves every existing location array alone (the guess and everything returned earlier), also when it fails *)
Theorem C65_existing_arrays_unchanged : forall env mini st Rm o h a,
  p_addr (lo_pl o) < List.length h -> a < List.length h ->
  nth a (snd (ml_estimate env mini st Rm o h)) [] = nth a h [].
Proof.
  intros env mini st Rm o h a Ho Ha.
  assert (O : orel h o (PVal (p_class (lo_pl o)) (p_units (lo_pl o)) (lo_dt o) (buf h (lo_pl o)))) by (repeat split; auto).
  destruct (estimate_rel env mini st (VSt None (ms_M st)) Rm o _ h O eq_refl) as (st' & h' & E1 & E2 & K & _). rewrite E2. now apply K.
Qed.
(** a resolved call: the returned placement has the class, units, dtype and size of the guess, is placed at the optimiser's
    final point, and is the stored estimate *)
Theorem C65_resolved : forall env mini st Rm g b r st', v_estimate env mini st Rm g = (Ok (b, Some r), st') ->
  b = true /\ vs_last st' = Some r /\ pv_class r = pv_class g /\ pv_units r = pv_units g /\ pv_dt r = pv_dt g /\
  List.length (pv_rows r) = List.length (pv_rows g) /\
  exists M bounds x last, prepare_M env (MlSt None (vs_M st)) Rm (List.length (pv_rows g)) = Ok M /\ opt_bounds (pv_pl g) (pv_rows g) = Ok bounds /\
    optimise (objective_at env M Rm g) g (mini (List.concat (pv_rows g)) bounds) (pv_rows g) = (Ok (true, x), last) /\
    place_at g x = Ok (pv_rows r).
Proof.
  intros env mini st Rm g b r st'. unfold v_estimate. destruct (_ || _); [discriminate|]. destruct (prepare_M _ _ _ _) as [M|] eqn:EM; [|discriminate]. destruct (opt_bounds _ _) as [bounds|] eqn:EB; [|discriminate].
  destruct (optimise _ _ _ _) as [[[[|] x]|e] last] eqn:EO; [|discriminate|discriminate]. destruct (place_at g x) as [rows|] eqn:EX; [|discriminate].
  intros H. injection H as <- <- <-. cbn [vs_last with_rows pv_class pv_units pv_dt pv_rows]. repeat (split; [reflexivity|]). split; [|now exists M, bounds, x, last].
  unfold place_at in EX. destruct (Nat.ltb _ _); [discriminate|]. destruct (pv_dt g); [discriminate|]. injection EX as <-. apply point_rows_length.
Qed.
(** an unresolved call returns no placement; the stored estimate is then the point evaluated last (not the guess) *)
Theorem C65_unresolved : forall env mini st Rm g b st', v_estimate env mini st Rm g = (Ok (b, None), st') ->
  b = false /\ exists M bounds x last, opt_bounds (pv_pl g) (pv_rows g) = Ok bounds /\
    optimise (objective_at env M Rm g) g (mini (List.concat (pv_rows g)) bounds) (pv_rows g) = (Ok (false, x), last) /\
    vs_last st' = Some (with_rows g last).
Proof.
  intros env mini st Rm g b st'. unfold v_estimate. destruct (_ || _); [discriminate|]. destruct (prepare_M _ _ _ _) as [M|] eqn:EM; [|discriminate]. destruct (opt_bounds _ _) as [bounds|] eqn:EB; [|discriminate].
  destruct (optimise _ _ _ _) as [[[[|] x]|e] last] eqn:EO; [|intros H; injection H as <- <-; split; [reflexivity|]; exists M, bounds, x, last; auto|discriminate]. destruct (place_at g x) as [rows|] eqn:EX; discriminate.
Qed.
(** rejected calls: too many sources, or a covariance of the wrong size; nothing is stored *)
Theorem C65_rejects : forall env mini st Rm o h,
  List.length (buf h (lo_pl o)) >= ar_size (ml_array env) \/ nr Rm <> ar_size (ml_array env) ->
  ml_estimate env mini st Rm o h = (Raise ValueError, st, h).
Proof.
  intros env mini st Rm o h H. unfold ml_estimate, ensure_n_resolvable_sources, ensure_covariance_size. rewrite Z.gtb_ltb. cbn [List.length Nat.eqb nth negb].
  destruct (Z.ltb_spec (Z.of_nat (ar_size (ml_array env)) - 1) (Z.of_nat (List.length (buf h (lo_pl o))))); [reflexivity|]. cbn [bind]. destruct (Nat.eqb_spec (nr Rm) (ar_size (ml_array env))); cbn [negb orb]; [|reflexivity]. exfalso. destruct H; lia.
Qed.
(** get_last_estimates: RuntimeError before the first estimate call that gets past its argument checks, a copy afterwards *)
Theorem C65_last : forall st h,
  (ms_est st = None -> get_last_estimates st h = (Raise RuntimeError, h)) /\
  (forall o, ms_est st = Some o -> p_addr (lo_pl o) < List.length h ->
     exists r, get_last_estimates st h = (Ok r, h ++ [buf h (lo_pl o)]) /\ p_class (lo_pl r) = p_class (lo_pl o) /\ p_units (lo_pl r) = p_units (lo_pl o) /\
       p_addr (lo_pl r) = List.length h /\ buf (h ++ [buf h (lo_pl o)]) (lo_pl r) = buf h (lo_pl o)).
Proof.
  intros st h. split; [intros E; unfold get_last_estimates; now rewrite E|]. intros o E L. destruct (get_last_rel st h o (PVal (p_class (lo_pl o)) (p_units (lo_pl o)) (lo_dt o) (buf h (lo_pl o))) E ltac:(repeat split; auto)) as (r & h' & G1 & G2 & G3 & G4).
  cbn [pv_rows] in G4. subst h'. exists r. destruct G2 as (_ & A1 & A2 & _ & A3). auto.
Qed.
(** an integer-valued guess cannot be optimised: np.copyto refuses to store floats into it *)
Theorem C65_integer_guess_defect : forall obj g x next last, pv_dt g = DInt -> List.length x = List.length (pv_rows g) * dim_of g ->
  optimise obj g (OEval x next) last = (Raise TypeError, last).
Proof. intros obj g x next last D L. cbn [optimise]. unfold place_at. rewrite L, Nat.ltb_irrefl, D. reflexivity. Qed.

(** a history: two guesses, a resolved call, a write into its result and into the guess, get_last_estimates and reads *)
Definition ex_env : mlenv := MlEnv CML (Array (LArr DFloat (Mat 2 1 (fun i _ => INR i))) "a" ISOTROPIC_SCALAR_SENSOR []) 1
  (fun A => Ok (Mat 1 2 (fun _ j => (Cconj (ent A j 0) / RtoC 2)%C))) (fun _ => Raise LinAlgError) (fun _ => Raise LinAlgError).
Definition ex_mini : minimizer := fun x0 _ => OEval x0 (fun _ => ODone true [3%R]).
Example C65_example : fst (ml_run ex_env (MlW [] [] ml_init)
   [ALast; ANew "FarField1DSourcePlacement" ["rad"%string] DFloat [[1%R]]; AEstimate ex_mini (mid 2) 0; AWrite 1 0 [7%R]; ALast; ARead 0; ARead 1; ARead 2]) =
  [VErr RuntimeError; VNew; VResult true; VDone; VNew; VRows "FarField1DSourcePlacement" ["rad"%string] DFloat [[1%R]];
   VRows "FarField1DSourcePlacement" ["rad"%string] DFloat [[7%R]]; VRows "FarField1DSourcePlacement" ["rad"%string] DFloat [[3%R]]].
Proof. lazy -[Reqb IZR cis Rmult Rplus Rinv Ropp PI sin cos Rdiv]. rewrite (P_sources.Reqb_neq 1 0 R1_neq_R0). reflexivity. Qed.
Print Assumptions C65_no_sharing.

(** C66.  Variable i*d+j is coordinate j of source i, in the start vector, in the bounds and in the estimates. *)
Theorem C66_variables : forall s dt, valid_sources s -> exists vr bounds,
  valid_ranges s = Ok vr /\ opt_bounds (pv_pl (value_of s dt)) (src_rows s) = Ok bounds /\
  let k := src_size s in let d := List.length vr in let x0 := opt_x0 (src_rows s) in
  List.length x0 = k * d /\ List.length bounds = k * d /\
  forall i j, i < k -> j < d ->
    nth (i * d + j) x0 0%R = nth j (nth i (src_rows s) []) 0%R /\
    nth (i * d + j) bounds (None, None) = nth j vr (None, None) /\
    within (nth (i * d + j) bounds (None, None)) (nth (i * d + j) x0 0%R).
Proof.
  intros s dt V. destruct (ranges_ok s V) as (vr & E & L). exists vr, (List.concat (repeat vr (src_size s))). split; [exact E|]. split; [now apply opt_bounds_ok|]. cbn zeta. unfold opt_x0.
  assert (LR : List.length (src_rows s) = src_size s) by (rewrite <- (value_rows s dt); apply value_len).
  pose proof (concat_nth (List.length vr) (src_rows s) 0%R ltac:(rewrite L; apply rows_dim)) as (A1 & A2). rewrite LR in A1, A2.
  pose proof (concat_nth (List.length vr) (repeat vr (src_size s)) ((None, None) : bound) (repeat_all (fun r => List.length r = List.length vr) vr _ eq_refl)) as (B1 & B2). rewrite repeat_length in B1, B2.
  split; [exact A1|]. split; [exact B1|]. intros i j Hi Hj. rewrite A2 by assumption. rewrite B2 by assumption. split; [reflexivity|].
  assert (RP : nth i (repeat vr (src_size s)) [] = vr) by (rewrite nth_repeat' by exact Hi; reflexivity). rewrite RP. split; [reflexivity|].
  assert (U : match s with NF2 _ => True | FF1 _ u => known_unit u | FF2 _ u => unit2 u end) by (destruct s; cbn in V |- *; [apply V | apply V | exact I]).
  apply (proj1 (valid_iff_within s vr E U) V); [now rewrite LR | exact Hj].
Qed.
(** flattening and reshaping are inverse to each other *)
Theorem C66_reshape_inverse : forall s x,
  point_rows (src_size s) (dim_of (value_of s DFloat)) (opt_x0 (src_rows s)) = src_rows s /\
  (List.length x = src_size s * dim_of (value_of s DFloat) -> opt_x0 (point_rows (src_size s) (dim_of (value_of s DFloat)) x) = x).
Proof.
  intros s x. rewrite value_dim. split; [|intros; now apply concat_point]. rewrite <- (value_len s DFloat), value_rows. apply point_concat, rows_dim.
Qed.
(** a point within the bounds gives a placement its class accepts; coordinate j of source i is variable i*d+j *)
Theorem C66_result_valid : forall s x bounds, valid_sources s -> opt_bounds (pv_pl (value_of s DFloat)) (src_rows s) = Ok bounds ->
  List.length x = List.length bounds -> (forall q, q < List.length x -> within (nth q bounds (None, None)) (nth q x 0%R)) ->
  exists rows s', place_at (value_of s DFloat) x = Ok rows /\ value_of s' DFloat = with_rows (value_of s DFloat) rows /\ valid_sources s' /\ src_size s' = src_size s.
Proof.
  intros s x bounds V EB LX WB. destruct (C66_variables s DFloat V) as (vr & bounds' & E & EB' & L0 & LB & H). rewrite EB in EB'. injection EB' as <-.
  destruct (ranges_ok s V) as (vr' & E' & LV). rewrite E in E'. injection E' as <-.
  unfold place_at. rewrite value_len, value_dim. rewrite <- LV. destruct (Nat.ltb_spec (List.length x) (src_size s * List.length vr)); [lia|]. replace (pv_dt (value_of s DFloat)) with DFloat by (destruct s; reflexivity).
  eexists. destruct (value_sources_rows s DFloat (point_rows (src_size s) (List.length vr) x)) as (s' & S1 & S2 & S3); [apply point_rows_length | rewrite <- LV; apply point_rows_dim |].
  exists s'. split; [reflexivity|]. split; [exact S2|]. split; [|exact S3].
  assert (U' : match s' with NF2 _ => True | FF1 _ u => known_unit u | FF2 _ u => unit2 u end /\ valid_ranges s' = Ok vr).
  { clear - S2 V E. destruct s as [l u|l u|l], s' as [l' u'|l' u'|l']; try discriminate S2; cbn in V, E |- *; [| | now split].
    - injection S2. intros. subst u'. split; [apply V | exact E].
    - injection S2. intros. subst u'. split; [apply V | exact E]. }
  destruct U' as (U' & E2). apply (valid_iff_within s' vr E2 U'). assert (RS : src_rows s' = point_rows (src_size s) (List.length vr) x) by (rewrite <- (value_rows s' DFloat), S2; reflexivity). rewrite RS.
  intros i j Hi Hj. rewrite point_rows_length in Hi. rewrite point_rows_nth by assumption. destruct (H i j Hi Hj) as (_ & H2 & _). unfold bound in *. rewrite <- H2. apply WB. rewrite LX, LB. nia.
Qed.
Example C66_example : valid_sources (FF2 [(1, 2); (-3, 4)]%R "deg") /\
  opt_x0 (src_rows (FF2 [(1, 2); (-3, 4)]%R "deg")) = [1; 2; -3; 4]%R /\
  opt_bounds (pv_pl (value_of (FF2 [(1, 2); (-3, 4)]%R "deg") DFloat)) (src_rows (FF2 [(1, 2); (-3, 4)]%R "deg")) =
    Ok [(Some (-180), Some 180); (Some (-90), Some 90); (Some (-180), Some 180); (Some (-90), Some 90)]%R.
Proof.
  split; [|split; reflexivity]. cbn. split; [now right|]. repeat (apply Forall_cons || apply Forall_nil); right; (split; [reflexivity | cbn; lra]).
Qed.
Print Assumptions C66_result_valid.
