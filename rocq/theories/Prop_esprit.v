(** Properties of ESPRIT (C63, C64). *)
From Coq Require Import Sorting.Sorted Sorting.Permutation.
From Verif Require Import Base_Np Base_Mem Base_Lin Base_Trig M_utils P_utils S_utils M_sources M_array S_sources S_grid M_coarray M_heap M_core P_core P_core2 P_sources3 M_subspace S_subspace P_subspace P_subspace2 P_subspace3 P_subspace4 P_subspace5.
From Verif Require Import Prop_subspace P_eig2.
Open Scope C_scope.

(** row weightings under which the code is correct: none, all ones, or weights on subarrays that do not overlap *)
Definition harmless_weights (rw : row_weights) (m d : nat) : Prop :=
  rw = RWStr "none" \/ rw = RWVec [(m - d)%nat] (repeat 1%R (m - d)) \/
  ((m <= 2 * d)%nat /\ (rw = RWStr "default" \/ exists l, rw = RWVec [(m - d)%nat] l /\ List.length l = (m - d)%nat /\ Forall (fun w => (0 < w)%R) l)).

Lemma weights_apart l m d : (d < m)%nat -> (m <= 2 * d)%nat -> List.length l = (m - d)%nat -> Forall (fun w => (0 < w)%R) l ->
  forall i, (i < m - d)%nat -> row_factor (Some l) m d i = row_factor (Some l) m d (d + i)%nat /\ row_factor (Some l) m d i <> RtoC 0.
Proof.
  intros Hd H2 HL HF i Hi. unfold row_factor. rewrite (proj2 (Nat.ltb_lt _ _) Hi). destruct (Nat.leb_spec d i); [lia|]. destruct (Nat.ltb_spec (d + i) (m - d)); [lia|]. destruct (Nat.leb_spec d (d + i)); [|lia].
  replace (d + i - d)%nat with i by lia. split; [ring|]. rewrite Cmult_1_r. cbn [wt]. apply RtoC_neq_0. rewrite Forall_forall in HF. assert (IN : In (nth i l 0%R) l) by (apply nth_In; lia). specialize (HF _ IN). lra.
Qed.
Lemma default_positive n : Forall (fun w => (0 < w)%R) (get_default_row_weights n).
Proof.
  destruct (default_weights n) as (L & N). apply Forall_forall. intros x Hx. apply (In_nth _ _ 0%R) in Hx as (i & Hi & <-). rewrite L in Hi. rewrite N by exact Hi. apply sqrt_lt_R0. apply lt_0_INR. lia.
Qed.
Lemma harmless_ok rw m d : (d < m)%nat -> harmless_weights rw m d ->
  exists w, check_row_weights rw (Z.of_nat (m - d)) = Ok w /\ match w with None => True | Some l => List.length l = (m - d)%nat end /\
    forall i, (i < m - d)%nat -> row_factor w m d i = row_factor w m d (d + i)%nat /\ row_factor w m d i <> RtoC 0.
Proof.
  intros Hd [->|[->|(H2 & [->|(l & -> & HL & HF)])]].
  - exists None. split; [reflexivity|]. split; [exact I|]. intros i Hi. unfold row_factor, wt. destruct (i <? m - d)%nat, (d <=? i)%nat, (d + i <? m - d)%nat, (d <=? d + i)%nat; (split; [ring | rewrite ?Cmult_1_r; apply RtoC_neq_0; lra]).
  - exists (Some (repeat 1%R (m - d))). split; [|split; [apply repeat_length|]].
    + unfold check_row_weights. cbn [List.length Nat.eqb negb orb]. rewrite repeat_length, Z.eqb_refl. reflexivity.
    + intros i Hi. assert (W : forall j, (j < m - d)%nat -> wt (Some (repeat 1%R (m - d))) j = RtoC 1) by (intros j Hj; cbn [wt]; now rewrite nth_repeat' by exact Hj).
      unfold row_factor. rewrite (proj2 (Nat.ltb_lt _ _) Hi), (W i Hi). destruct (Nat.leb_spec d (d + i)); [|lia]. replace (d + i - d)%nat with i by lia. rewrite (W i Hi).
      destruct (Nat.ltb_spec (d + i) (m - d)) as [A|A]; [rewrite (W _ A)|]; (destruct (Nat.leb_spec d i); [rewrite (W (i - d)%nat) by lia|]); (split; [ring | rewrite ?Cmult_1_r; apply RtoC_neq_0; lra]).
  - exists (Some (get_default_row_weights (m - d))). split; [unfold check_row_weights; cbn [String.eqb Ascii.eqb Bool.eqb]; now rewrite Nat2Z.id|]. split; [apply default_weights|]. apply weights_apart; try assumption; [apply default_weights | apply default_positive].
  - exists (Some l). split; [unfold check_row_weights; cbn [List.length Nat.eqb negb orb]; rewrite HL, Z.eqb_refl; reflexivity|]. split; [exact HL|]. now apply weights_apart.
Qed.

(** C63: on an exact covariance of k sources with distinct z^D the eigenvalues ESPRIT uses (ls and tls) are exactly the z^D. *)
Theorem C63_exact : forall eigh solve eigvals Rm P s zs m d formulation rw,
  eigh_contract (Nat.max m (2 * List.length zs)) eigh -> solve_contract (List.length zs) solve -> eigvals_contract (List.length zs) eigvals ->
  exact_cov Rm (ula_matrix m zs) P s -> pd P -> NoDup (map (fun z => cpow z d) zs) ->
  (1 <= d)%nat -> (1 <= List.length zs)%nat -> (List.length zs + d <= m)%nat ->
  formulation = "tls"%string \/ formulation = "ls"%string -> harmless_weights rw m d ->
  exists l, esprit_z eigh solve eigvals Rm (Z.of_nat (List.length zs)) (Z.of_nat d) formulation rw = Ok l /\ Permutation l (map (fun z => cpow z d) zs).
Proof.
  intros eigh solve eigvals Rm P s zs m d formulation rw HE HS HV HX HP HD Hd Hk Hkm HF HW.
  destruct (harmless_ok rw m d ltac:(lia) HW) as (w & W1 & W2 & W3).
  destruct (es_main eigh solve eigvals Rm P s zs m d HE HS HV HX HP (NoDup_map_inv _ _ HD) Hd Hk Hkm formulation rw w HF W1 W2 W3) as (l & E & L & I).
  exists l. split; [exact E|]. symmetry. apply NoDup_Permutation_bis; [exact HD | rewrite map_length; lia | intros x Hx; now apply I].
Qed.
(** and estimate returns the true directions, in ascending order *)
Theorem C63_directions : forall eigh solve eigvals Rm P s ts m d formulation rw lam d0 unit,
  eigh_contract (Nat.max m (2 * List.length ts)) eigh -> solve_contract (List.length ts) solve -> eigvals_contract (List.length ts) eigvals ->
  known_unit unit -> (0 < lam)%R -> (0 < match d0 with None => lam / 2 | Some x => x end)%R ->
  let d0' := match d0 with None => (lam / 2)%R | Some x => x end in
  NoDup ts -> Forall (fun t => (- (PI / 2) <= t <= PI / 2 /\ - PI < 2 * PI * (d0' * IZR (Z.of_nat d)) / lam * sin t <= PI)%R) ts ->
  exact_cov Rm (ula_matrix m (map (fun t => cis (2 * PI * d0' / lam * sin t)) ts)) P s -> pd P ->
  (1 <= d)%nat -> (1 <= List.length ts)%nat -> (List.length ts + d <= m)%nat ->
  formulation = "tls"%string \/ formulation = "ls"%string -> harmless_weights rw m d ->
  exists l, esprit eigh solve eigvals lam Rm (Z.of_nat (List.length ts)) d0 (Z.of_nat d) formulation rw unit = Ok (true, (map Some l, unit)) /\
    ascending l /\ Permutation l (map (of_rad unit) ts).
Proof.
  intros eigh solve eigvals Rm P s ts m d formulation rw lam d0 unit HE HS HV KU Hl Hd0 d0' HD HT HX HP Hd Hk Hkm HF HW. fold d0' in Hd0. pose proof PI_RGT_0 as PP.
  assert (Dp : (0 < IZR (Z.of_nat d))%R) by (apply IZR_lt; lia).
  set (f := fun t => RtoC 1 * cis (2 * PI * (d0' * IZR (Z.of_nat d)) / lam * sin t)).
  assert (MM : map (fun z => cpow z d) (map (fun t => cis (2 * PI * d0' / lam * sin t)) ts) = map f ts).
  { rewrite map_map. apply map_ext. intros t. unfold f. rewrite cpow_cis, Cmult_1_l. f_equal. rewrite INR_IZR_INZ. field. lra. }
  assert (Cc : (0 < 2 * PI * (d0' * IZR (Z.of_nat d)) / lam)%R) by (apply Rdiv_lt_0_compat; [|exact Hl]; apply Rmult_lt_0_compat; [lra | now apply Rmult_lt_0_compat]).
  assert (ND : NoDup (map f ts)).
  { clear MM HX. assert (Hinj : forall a b, In a ts -> In b ts -> f a = f b -> a = b).
    { intros a b Ia Ib. unfold f. rewrite !Cmult_1_l. rewrite Forall_forall in HT. destruct (HT a Ia) as (A1 & A2), (HT b Ib) as (B1 & B2). intros E. apply cis_inj in E; [|assumption|assumption].
      apply Rmult_eq_reg_l in E; [|lra]. rewrite <- (asin_sin a), <- (asin_sin b) by lra. now rewrite E. }
    clear HT Hk Hkm HE HS HV. induction ts as [|a ts IH]; [constructor|]. inversion HD as [|? ? Na ND0]; subst. cbn [map]. constructor.
    - intros I. apply in_map_iff in I as (b & E & Ib). apply Hinj in E; [subst; contradiction | now right | now left].
    - apply IH; [assumption|]. intros x y Hx Hy. apply Hinj; now right. }
  set (zs := map (fun t => cis (2 * PI * d0' / lam * sin t)) ts) in *. assert (Lz : List.length zs = List.length ts) by apply map_length.
  destruct (C63_exact eigh solve eigvals Rm P s zs m d formulation rw) as (l & E & PM); try (rewrite ?Lz; assumption); try (rewrite MM; exact ND).
  rewrite MM in PM. destruct (Permutation_map_inv _ _ PM) as (ts' & -> & PT).
  destruct (from_z_recovers ts' lam (d0' * IZR (Z.of_nat d)) unit (fun _ => 1%R) KU Hl) as (r & F & S & PR).
  - now apply Rmult_lt_0_compat.
  - intros; lra.
  - rewrite Forall_forall in *. intros t It. apply HT. now apply (Permutation_in _ (Permutation_sym PT)).
  - exists r. split; [|split; [exact S|]].
    + unfold esprit. rewrite Lz in E. fold d0'. rewrite E. cbn [bind]. unfold f. rewrite F. reflexivity.
    + rewrite PR. apply Permutation_map. now symmetry.
Qed.

(** Finding: the code scales the overlapping subarrays in place, so a sensor inside both is weighted twice.
    Uniform weights 2 on two sources at z = 1 and z = i: z = 1 is not among the results. *)
Definition cov_of (A : cmat) : cmat := A *m mid (nc A) *m mher A +m mscal (RtoC 1) (mid (nr A)).
Lemma cov_of_exact A : exact_cov (cov_of A) A (mid (nc A)) 1.
Proof. split; [reflexivity|]. split; [reflexivity|]. reflexivity. Qed.
Lemma pair_inv (a b : C) : a = b -> Re a = Re b /\ Im a = Im b. Proof. intros ->. auto. Qed.
Theorem C63_uniform_weights_defect : forall eigh solve eigvals,
  eigh_contract 4 eigh -> solve_contract 2 solve -> eigvals_contract 2 eigvals ->
  let zs := [RtoC 1; Ci] in
  exists l, esprit_z eigh solve eigvals (cov_of (ula_matrix 3 zs)) 2 1 "ls" (RWVec [2%nat] [2%R; 2%R]) = Ok l /\ List.length l = 2%nat /\ ~ In (RtoC 1) l.
Proof.
  intros eigh solve eigvals HE HS HV zs.
  destruct (es_square eigh solve eigvals (cov_of (ula_matrix 3 zs)) (mid 2) 1 zs 3 1 HE HS HV (cov_of_exact _) (pd_mid 2)) with (rw := RWVec [2%nat] [2%R; 2%R]) (w := Some [2%R; 2%R]) as (l & E & L & H).
  - repeat constructor; [|intros []]. intros [X|[]]. apply (f_equal Re) in X. cbn in X. lra.
  - lia.
  - cbn; lia.
  - cbn; lia.
  - reflexivity.
  - reflexivity.
  - reflexivity.
  - intros [|[|i]] Hi; [| |cbn in Hi; lia]; cbn; intros X; apply (f_equal Re) in X; cbn in X; lra.
  - exists l. split; [exact E|]. split; [exact L|]. intros I. destruct (H _ I) as (u & (c & Hc & N) & Q). clear - Hc N Q. destruct (pair_inv _ _ (Q 0%nat ltac:(cbn; lia))) as (Q1 & Q2). destruct (pair_inv _ _ (Q 1%nat ltac:(cbn; lia))) as (Q3 & Q4).
    cbn in Q1, Q2, Q3, Q4. destruct (u 0%nat) as (a, b) eqn:E0. destruct (u 1%nat) as (a', b') eqn:E1. cbn in Q1, Q2, Q3, Q4.
    assert (a = 0 /\ b = 0 /\ a' = 0 /\ b' = 0)%R as (-> & -> & -> & ->) by (repeat split; lra).
    destruct c as [|[|c]]; [| |cbn in Hc; lia]; apply N; [exact E0 | exact E1].
Qed.
(** The documented "default" weights lose a source as well: z = 1, i, -1 on four sensors. *)
Theorem C63_default_weights_defect : forall eigh solve eigvals,
  eigh_contract 6 eigh -> solve_contract 3 solve -> eigvals_contract 3 eigvals ->
  let zs := [RtoC 1; Ci; - RtoC 1] in
  exists l, esprit_z eigh solve eigvals (cov_of (ula_matrix 4 zs)) 3 1 "ls" (RWStr "default") = Ok l /\ List.length l = 3%nat /\ ~ In (RtoC 1) l.
Proof.
  intros eigh solve eigvals HE HS HV zs. destruct (default_weights 3) as (DL & DN).
  assert (DW : get_default_row_weights 3 = [1%R; sqrt 2; 1%R]).
  { pose proof (DN 0%nat ltac:(lia)) as D0. pose proof (DN 1%nat ltac:(lia)) as D1. pose proof (DN 2%nat ltac:(lia)) as D2. cbn [Nat.min Nat.add Nat.sub INR] in D0, D1, D2. rewrite sqrt_1 in D0, D2.
    destruct (get_default_row_weights 3) as [|a [|b [|c [|? ?]]]]; try discriminate. cbn [nth] in D0, D1, D2. subst. do 2 f_equal. }
  assert (S2 : (1 < sqrt 2)%R) by (rewrite <- sqrt_1 at 1; apply sqrt_lt_1; lra).
  destruct (es_square eigh solve eigvals (cov_of (ula_matrix 4 zs)) (mid 3) 1 zs 4 1 HE HS HV (cov_of_exact _) (pd_mid 3)) with (rw := RWStr "default") (w := Some [1%R; sqrt 2; 1%R]) as (l & E & L & H).
  - repeat constructor; [| |intros []]; [intros [X|[X|[]]] | intros [X|[]]]; apply (f_equal Re) in X; cbn in X; lra.
  - lia.
  - cbn; lia.
  - cbn; lia.
  - change (Z.of_nat (4 - 1)) with 3%Z. unfold check_row_weights. cbn [String.eqb Ascii.eqb Bool.eqb]. change (Z.to_nat 3) with 3%nat. now rewrite DW.
  - reflexivity.
  - reflexivity.
  - intros [|[|[|i]]] Hi; [| | |cbn in Hi; lia]; cbn -[sqrt]; intros X; apply (f_equal Re) in X; cbn -[sqrt] in X; nra.
  - exists l. split; [exact E|]. split; [exact L|]. intros I. destruct (H _ I) as (u & (c & Hc & N) & Q). clear - Hc N Q S2.
    destruct (pair_inv _ _ (Q 0%nat ltac:(cbn; lia))) as (Q1 & Q2). destruct (pair_inv _ _ (Q 1%nat ltac:(cbn; lia))) as (Q3 & Q4). destruct (pair_inv _ _ (Q 2%nat ltac:(cbn; lia))) as (Q5 & Q6).
    cbn -[sqrt] in Q1, Q2, Q3, Q4, Q5, Q6. destruct (u 0%nat) as (a, b) eqn:E0. destruct (u 1%nat) as (a', b') eqn:E1. destruct (u 2%nat) as (a'', b'') eqn:E2. cbn -[sqrt] in Q1, Q2, Q3, Q4, Q5, Q6. set (s := sqrt 2) in *.
    (* p1 = p2 =: (x, y) *)
    assert (X2 : (a - a' + a'' = a - b' - a'')%R) by (apply (Rmult_eq_reg_l s); lra). assert (Y2 : (b - b' + b'' = b + a' - b'')%R) by (apply (Rmult_eq_reg_l s); lra).
    assert (X0 : (a + a' + a'' = s * (a - b' - a''))%R) by lra. assert (Y0 : (b + b' + b'' = s * (b + a' - b''))%R) by lra.
    assert (X3 : (a + b' - a'' = s * (a - b' - a''))%R) by lra. assert (Y3 : (b - a' - b'' = s * (b + a' - b''))%R) by lra.
    assert (ZX : ((s - 1) * ((a - b' - a'') - (b + a' - b'')) = 0)%R) by lra. assert (ZY : ((s - 1) * ((a - b' - a'') + (b + a' - b'')) = 0)%R) by lra.
    apply Rmult_integral in ZX as [ZX|ZX]; [lra|]. apply Rmult_integral in ZY as [ZY|ZY]; [lra|].
    assert (P1 : (a - b' - a'' = 0)%R) by lra. assert (P2 : (b + a' - b'' = 0)%R) by lra. rewrite P1 in X0, X3. rewrite P2 in Y0, Y3. rewrite Rmult_0_r in X0, X3, Y0, Y3.
    assert (a = 0 /\ b = 0 /\ a' = 0 /\ b' = 0 /\ a'' = 0 /\ b'' = 0)%R as (-> & -> & -> & -> & -> & ->) by (repeat split; lra).
    destruct c as [|[|[|c]]]; [| | |cbn in Hc; lia]; apply N; assumption.
Qed.
Example C63_example : forall formulation rw, formulation = "tls"%string \/ formulation = "ls"%string -> harmless_weights rw 2 1 ->
  exists l, esprit eigh2 solve1 eigvals1 1 ex_R 1 None 1 formulation rw "rad" = Ok (true, (map Some l, "rad"%string)) /\ l = [0%R].
Proof.
  intros formulation rw HF HW. pose proof PI_RGT_0 as PP.
  destruct (C63_directions eigh2 solve1 eigvals1 ex_R ex_P 1 [0%R] 2 1 formulation rw 1 None "rad") as (l & E & _ & PM); try assumption.
  - exact eigh2_contract.
  - exact solve1_contract.
  - exact eigvals1_contract.
  - unfold known_unit; tauto.
  - lra.
  - lra.
  - repeat constructor. intros [].
  - repeat (apply Forall_cons || apply Forall_nil); rewrite sin_0, Rmult_0_r; lra.
  - cbn [map]. rewrite sin_0, Rmult_0_r. replace (cis 0) with (RtoC 1) by (unfold cis; rewrite cos_0, sin_0; reflexivity). exact ex_exact.
  - apply pd_mid.
  - lia.
  - cbn; lia.
  - cbn; lia.
  - exists l. split; [exact E|]. cbn [map] in PM. unfold of_rad in PM. cbn [String.eqb Ascii.eqb Bool.eqb] in PM. now apply Permutation_length_1_inv, Permutation_sym.
Qed.
Example C63_example_weights : harmless_weights (RWVec [2%nat] [2%R; 3%R]) 4 2.
Proof. right. right. split; [lia|]. right. exists [2%R; 3%R]. split; [reflexivity|]. split; [reflexivity|]. repeat (apply Forall_cons || apply Forall_nil); lra. Qed.

(** C64: default row weights and input checks *)
Theorem C64_default_weights : forall m, List.length (get_default_row_weights m) = m /\
  (forall i, (i < m)%nat -> nth i (get_default_row_weights m) 0%R = sqrt (INR (Nat.min (i + 1) (m - i)))) /\
  (forall i, (i < m)%nat -> nth i (get_default_row_weights m) 0%R = nth (m - 1 - i) (get_default_row_weights m) 0%R) /\
  Forall (fun w => (0 < w)%R) (get_default_row_weights m).
Proof.
  intros m. destruct (default_weights m) as (L & N). split; [exact L|]. split; [exact N|]. split; [|apply default_positive].
  intros i Hi. rewrite !N by lia. do 2 f_equal. lia.
Qed.
(** estimate fails with ValueError exactly before any computation when an argument is malformed *)
Theorem C64_checks : forall eigh solve eigvals lam Rm k d0 d formulation rw unit,
  let m := Z.of_nat (nr Rm) in
  ((d < 1)%Z \/ (k > m - d)%Z \/
   match rw with
   | RWStr s => s <> "none"%string /\ s <> "default"%string
   | RWVec shape l => List.length shape <> 1%nat \/ Z.of_nat (List.length l) <> (m - d)%Z
   | RWOther => True
   end) ->
  esprit eigh solve eigvals lam Rm k d0 d formulation rw unit = Raise ValueError.
Proof.
  intros eigh solve eigvals lam Rm k d0 d formulation rw unit m H. unfold esprit, esprit_z. fold m. destruct (Z.ltb_spec d 1); [reflexivity|]. unfold ensure_n_resolvable_sources. rewrite Z.gtb_ltb. destruct (Z.ltb_spec (m - d) k); [reflexivity|]. cbn [bind].
  destruct H as [H|[H|H]]; [lia | lia|]. unfold check_row_weights. destruct rw as [s|shape l|]; [| |reflexivity].
  - destruct H as (Hn1 & Hn2). destruct (String.eqb_spec s "none"); [contradiction|]. destruct (String.eqb_spec s "default"); [contradiction|]. reflexivity.
  - destruct (Nat.eqb_spec (List.length shape) 1); cbn [negb orb]; [|reflexivity]. destruct (Z.eqb_spec (Z.of_nat (List.length l)) (m - d)); cbn [negb]; [|reflexivity]. destruct H; contradiction.
Qed.
(** well-formed arguments are accepted, and an unknown formulation is rejected *)
Theorem C64_accepts : forall rw n, (rw = RWStr "none" \/ rw = RWStr "default" \/ exists l, rw = RWVec [n] l /\ List.length l = n) ->
  exists w, check_row_weights rw (Z.of_nat n) = Ok w /\
    match rw with RWStr "none" => w = None | RWStr _ => w = Some (get_default_row_weights n) | RWVec _ l => w = Some l | RWOther => False end.
Proof.
  intros rw n [->|[->|(l & -> & H)]]; [now exists None | |].
  - exists (Some (get_default_row_weights n)). unfold check_row_weights. cbn [String.eqb Ascii.eqb Bool.eqb]. now rewrite Nat2Z.id.
  - exists (Some l). unfold check_row_weights. cbn [List.length Nat.eqb negb orb]. rewrite H, Z.eqb_refl. auto.
Qed.
Theorem C64_formulation : forall eigh solve k E1 E2 f, f <> "tls"%string -> f <> "ls"%string -> rotation eigh solve f k E1 E2 = Raise ValueError.
Proof. intros eigh solve k E1 E2 f H1 H2. unfold rotation. destruct (String.eqb_spec f "tls"); [contradiction|]. destruct (String.eqb_spec f "ls"); [contradiction|]. reflexivity. Qed.
Example C64_example : get_default_row_weights 5 = map sqrt [1; 2; (5 + 1) / 2; 2; 1]%R.
Proof. unfold get_default_row_weights. cbn -[sqrt INR]. cbn [INR]. repeat f_equal; lra. Qed.

Print Assumptions C63_exact.
Print Assumptions C63_directions.
Print Assumptions C63_uniform_weights_defect.
Print Assumptions C63_default_weights_defect.
Print Assumptions C64_default_weights.
Print Assumptions C64_checks.
Print Assumptions C64_accepts.
Print Assumptions C64_formulation.
