(** Monotonicity of the bounds through their three output modes. *)
From Verif Require Import Base_Np Base_Trig Base_Lin S_utils M_utils M_sources S_sources M_array S_array P_utils
  S_model S_subspace M_perf S_perf P_perf P_perf2 S_equiv P_equiv P_equiv2 P_mono S_mono P_mono2.
Open Scope C_scope.

Lemma info_pad (D D' Pi Q' : cmat) x : nr D' = nr D -> nr Pi = nr D -> nc Pi = nr D -> (nc D <= nc D')%nat -> (forall i j, (i < nr D)%nat -> (j < nc D)%nat -> ent D' i j = ent D i j) ->
  rform (info_matrix D' Pi Q') (pad (nc D) x) = rform (info_matrix D Pi (Mat (nc D) (nc D) (ent Q'))) x.
Proof.
  intros n1 p1 p2 le E. unfold rform. cbn [info_matrix nr]. rewrite (rsum_pad (nc D') (nc D) _ le).
  2: { intros i Hi. unfold pad at 1. destruct (Nat.ltb_spec i (nc D)); [lia|ring]. }
  apply rsum_ext. intros i Hi. unfold pad at 1. destruct (Nat.ltb_spec i (nc D)); [|lia]. f_equal. rewrite (rsum_pad (nc D') (nc D) _ le).
  2: { intros j Hj. unfold pad at 1. destruct (Nat.ltb_spec j (nc D)); [lia|ring]. }
  apply rsum_ext. intros j Hj. unfold pad. destruct (Nat.ltb_spec j (nc D)); [|lia]. f_equal. cbn [info_matrix ent]. f_equal. rewrite n1. f_equal.
  apply bform_ext_lt; cbn [msub mid nr nc]; intros r Hr; unfold col; apply E; assumption.
Qed.

(** ** Output modes *)
Definition ebasis (j : nat) : nat -> R := fun i => if Nat.eqb i j then 1%R else 0%R.
Lemma rform_basis V j : (j < nr V)%nat -> rform V (ebasis j) = ent V j j.
Proof.
  intros Hj. unfold rform, ebasis. rewrite (rsum_single (nr V) _ j Hj).
  - rewrite Nat.eqb_refl, (rsum_single (nr V) _ j Hj); [rewrite Nat.eqb_refl; ring|]. intros i _ Hi. destruct (Nat.eqb_spec i j); [congruence|ring].
  - intros i _ Hi. destruct (Nat.eqb_spec i j); [congruence|ring].
Qed.
Lemma rform_symmetrised X x : nr X = nc X -> rform (symmetrised X) x = rform X x.
Proof.
  intros n. unfold rform. cbn [symmetrised nr ent].
  assert (T : rsum (nr X) (fun i => (x i * rsum (nr X) (fun j => ent X j i * x j))%R) = rsum (nr X) (fun i => (x i * rsum (nr X) (fun j => ent X i j * x j))%R)).
  { transitivity (rsum (nr X) (fun i => rsum (nr X) (fun j => (x i * (ent X j i * x j))%R))); [apply rsum_ext; intros i _; rewrite <- rsum_scal; reflexivity|].
    rewrite rsum_swap. apply rsum_ext. intros i _. rewrite <- rsum_scal. apply rsum_ext. intros j _. ring. }
  transitivity (/ 2 * (rsum (nr X) (fun i => (x i * rsum (nr X) (fun j => ent X i j * x j))%R) + rsum (nr X) (fun i => (x i * rsum (nr X) (fun j => ent X j i * x j))%R)))%R; [|rewrite T; field].
  rewrite <- rsum_plus, <- rsum_scal. apply rsum_ext. intros i _.
  replace (/ 2 * (x i * rsum (nr X) (fun j => ent X i j * x j) + x i * rsum (nr X) (fun j => ent X j i * x j)))%R
    with (x i * (/ 2 * (rsum (nr X) (fun j => ent X i j * x j) + rsum (nr X) (fun j => ent X j i * x j))))%R by ring. f_equal.
  rewrite <- rsum_plus, <- rsum_scal. apply rsum_ext. intros j _. ring.
Qed.
Lemma rdiag_length V : nr V = nc V -> List.length (rdiag V) = nr V.
Proof. intros E. unfold rdiag. rewrite map_length, seq_length, <- E. apply Nat.min_id. Qed.
Lemma rdiag_nth V i : nr V = nc V -> (i < nr V)%nat -> nth i (rdiag V) 0%R = ent V i i.
Proof. intros E Hi. unfold rdiag. rewrite nth_map_seq; [reflexivity|]. rewrite <- E, Nat.min_id. exact Hi. Qed.
Lemma Forall2_nth_R (l l' : list R) : List.length l = List.length l' -> (forall i, (i < List.length l)%nat -> (nth i l 0 <= nth i l' 0)%R) -> Forall2 Rle l l'.
Proof.
  revert l'. induction l as [|x l IH]; intros [|y l'] Ln H; try discriminate; constructor.
  - apply (H 0%nat). cbn. lia.
  - apply IH; [now injection Ln|]. intros i Hi. apply (H (S i)). cbn. lia.
Qed.
Lemma sum_le (l l' : list R) : Forall2 Rle l l' -> (fold_right Rplus 0 l <= fold_right Rplus 0 l')%R /\ List.length l = List.length l'.
Proof. induction 1 as [|x y l l' Hxy _ (IH & Ln)]; cbn; [split; [lra|reflexivity]|]. split; [lra|congruence]. Qed.
Lemma reduce_modes V mode o : reduce_output_matrix V mode = Ok o -> o = OFull V \/ o = ODiag (rdiag V) \/ o = OMean (match rdiag V with [] => None | d => Some (fold_right Rplus 0%R d / INR (List.length d))%R end).
Proof.
  unfold reduce_output_matrix. destruct (String.eqb mode "full"); [intros E; injection E as <-; now left|]. destruct (String.eqb mode "diag"); [intros E; injection E as <-; now right; left|].
  destruct (String.eqb mode "mean_diag"); [intros E; injection E as <-; now right; right|discriminate].
Qed.
Lemma reduce_mono V V' mode o o' : nr V = nc V -> nr V' = nc V' -> rloewner V' V -> reduce_output_matrix V mode = Ok o -> reduce_output_matrix V' mode = Ok o' -> no_worse o' o.
Proof.
  intros n n' (Ln & Hle). unfold reduce_output_matrix.
  assert (Df : Forall2 Rle (rdiag V') (rdiag V)).
  { apply Forall2_nth_R; [now rewrite !rdiag_length|]. rewrite (rdiag_length V' n'). intros i Hi. rewrite !rdiag_nth by congruence.
    pose proof (Hle (ebasis i)) as Hb. rewrite !rform_basis in Hb by congruence. exact Hb. }
  destruct (String.eqb mode "full"); [intros E E'; injection E as <-; injection E' as <-; split; assumption|].
  destruct (String.eqb mode "diag"); [intros E E'; injection E as <-; injection E' as <-; exact Df|].
  destruct (String.eqb mode "mean_diag"); [|discriminate]. intros E E'; injection E as <-; injection E' as <-.
  pose proof (sum_le _ _ Df) as (Sl & Ll). cbn [no_worse]. destruct (rdiag V') as [|x' d'], (rdiag V) as [|x d]; try discriminate; [exact I|].
  injection Ll as Ll. rewrite Ll. apply Rmult_le_compat_r; [|exact Sl]. apply Rlt_le, Rinv_0_lt_compat, (lt_0_INR (S (List.length d))). lia.
Qed.
Lemma reduce_same V V' mode o o' : nr V = nc V -> meq V' V -> reduce_output_matrix V mode = Ok o -> reduce_output_matrix V' mode = Ok o' -> same_bound o' o.
Proof.
  intros n E. assert (RD : rdiag V' = rdiag V).
  { destruct E as (n1 & n2 & E). unfold rdiag. rewrite n1, n2. apply map_ext_in. intros i Hi. apply in_seq in Hi. apply E; lia. }
  unfold reduce_output_matrix. rewrite RD.
  destruct (String.eqb mode "full"); [intros H H'; injection H as <-; injection H' as <-; exact E|].
  destruct (String.eqb mode "diag"); [intros H H'; injection H as <-; injection H' as <-; reflexivity|].
  destruct (String.eqb mode "mean_diag"); [|discriminate]. intros H H'; injection H as <-; injection H' as <-. reflexivity.
Qed.
Lemma reduce_first V V' k mode o o' : nr V = k -> nc V = k -> nr V' = nc V' -> (k <= nr V')%nat -> (forall x, (rform V x <= rform V' (pad k x))%R) ->
  In mode ["full"; "diag"]%string -> reduce_output_matrix V mode = Ok o -> reduce_output_matrix V' mode = Ok o' -> no_worse_first k o o'.
Proof.
  intros n1 n2 n' le Hle Hm. destruct Hm as [<-|[<-|[]]]; cbn.
  - intros E E'; injection E as <-; injection E' as <-. split; [exact n1|]. split; [exact le|exact Hle].
  - intros E E'; injection E as <-; injection E' as <-. assert (n : nr V = nc V) by congruence. split; [rewrite rdiag_length by exact n; exact n1|].
    assert (Lf : List.length (firstn k (rdiag V')) = k) by (rewrite firstn_length, rdiag_length by exact n'; lia).
    apply Forall2_nth_R; [rewrite rdiag_length by exact n; congruence|]. rewrite (rdiag_length V n). intros i Hi. rewrite rdiag_nth by (congruence || lia).
    replace (nth i (firstn k (rdiag V')) 0%R) with (nth i (rdiag V') 0%R) by (rewrite <- (firstn_skipn k (rdiag V')) at 1; apply app_nth1; lia). rewrite rdiag_nth by (congruence || lia).
    pose proof (Hle (ebasis i)) as Hb. rewrite rform_basis in Hb by lia.
    replace (rform V' (pad k (ebasis i))) with (rform V' (ebasis i)) in Hb.
    + rewrite rform_basis in Hb by lia. exact Hb.
    + assert (Ex : forall j, pad k (ebasis i) j = ebasis i j) by (intros j; unfold pad, ebasis; destruct (Nat.ltb_spec j k); [reflexivity|]; destruct (Nat.eqb_spec j i); [lia|reflexivity]).
      unfold rform. apply rsum_ext. intros a _. rewrite Ex. f_equal. apply rsum_ext. intros b _. now rewrite Ex.
Qed.
(** c V and c' V' with 0 <= c' <= c *)
Lemma scaled_mono V V' c c' : nr V = nc V -> nr V' = nc V' -> nr V = nr V' -> (0 <= c' <= c)%R -> (forall x, (0 <= rform V' x)%R) -> (forall x, (rform V' x <= rform V x)%R) ->
  rloewner (symmetrised (rscal c' V')) (symmetrised (rscal c V)).
Proof.
  intros n n' e (Hc & Hcc) Hp Hle. split; [cbn; congruence|]. intros x. rewrite !rform_symmetrised by (cbn; assumption). rewrite !rform_rscal.
  apply Rle_trans with (c * rform V' x)%R; [apply Rmult_le_compat_r; [apply Hp|exact Hcc]|apply Rmult_le_compat_l; [lra|apply Hle]].
Qed.
Lemma half_div s s' N N' : (0 <= s' <= s)%R -> (0 < N <= N')%R -> (0 <= s' / N' / 2 <= s / N / 2)%R.
Proof.
  intros H HN. assert (K : (0 <= s' / N' <= s / N)%R); [|split; lra]. assert (I : (0 < / N' <= / N)%R) by (split; [apply Rinv_0_lt_compat; lra|apply Rinv_le_contravar; lra]).
  unfold Rdiv. split; [apply Rmult_le_pos; lra|]. apply Rmult_le_compat; lra.
Qed.
Lemma bound_compare Sg Sg' Vm Vm' c c' mode o o' : nr Sg = nr Sg' -> rpsd Sg -> rpsd Sg' -> inv_of Sg Vm -> inv_of Sg' Vm' -> (forall z, (rform Sg z <= rform Sg' z)%R) -> (0 <= c' <= c)%R ->
  reduce_output_matrix (symmetrised (rscal c Vm)) mode = Ok o -> reduce_output_matrix (symmetrised (rscal c' Vm')) mode = Ok o' -> no_worse o' o.
Proof.
  intros n IP IP' HI HI' LE Hc RE RE'. pose proof HI as (_ & n1 & n2 & _). pose proof HI' as (_ & n1' & n2' & _).
  refine (reduce_mono _ _ mode o o' _ _ _ RE RE'); [cbn; congruence|cbn; congruence|]. apply scaled_mono; try congruence; [exact (proj2 (inv_psd _ _ IP' HI'))|].
  intros x. apply (inv_antitone Sg Sg'); assumption.
Qed.
Lemma bound_first Sg Sg' Vm Vm' c mode o o' : (nr Sg <= nr Sg')%nat -> rpsd Sg -> rpsd Sg' -> inv_of Sg Vm -> inv_of Sg' Vm' -> (forall z, (rform Sg' (pad (nr Sg) z) <= rform Sg z)%R) -> (0 <= c)%R ->
  In mode ["full"; "diag"]%string ->
  reduce_output_matrix (symmetrised (rscal c Vm)) mode = Ok o -> reduce_output_matrix (symmetrised (rscal c Vm')) mode = Ok o' -> no_worse_first (nr Sg) o o'.
Proof.
  intros n IP IP' HI HI' LE Hc Hm RE RE'. pose proof HI as (_ & n1 & n2 & _). pose proof HI' as (_ & n1' & n2' & _).
  refine (reduce_first _ _ (nr Sg) mode o o' _ _ _ _ _ Hm RE RE'); try (cbn; congruence).
  intros x. rewrite !rform_symmetrised by (cbn; congruence). rewrite !rform_rscal. apply Rmult_le_compat_l; [exact Hc|]. apply (inv_block Sg Sg'); assumption.
Qed.
(** a positive semidefinite invertible matrix is definite, and so is a larger one *)
Lemma inv_definite Sg Vm x : rpsd Sg -> inv_of Sg Vm -> rform Sg x = 0%R -> forall i, (i < nr Sg)%nat -> x i = 0%R.
Proof.
  intros (Sy & PS) HI H0.
  (* S x = 0 by Cauchy-Schwarz: form at x - t y *)
  assert (Z : forall y, rdot (nr Sg) y (rmv Sg x) = 0%R).
  { intros y. set (b := rdot (nr Sg) y (rmv Sg x)). set (q := rform Sg y). pose proof (PS y) as Hq. fold q in Hq.
    assert (G : forall t : R, (0 <= t * t * q - 2 * t * b)%R).
    { intros t. pose proof (PS (fun i => (t * y i - x i)%R)) as NN. rewrite (rform_diff Sg (fun i => (t * y i)%R) x Sy), H0 in NN.
      replace (rform Sg (fun i => (t * y i)%R)) with (t * t * q)%R in NN.
      - replace (rdot (nr Sg) (fun i => (t * y i)%R) (rmv Sg x)) with (t * b)%R in NN; [lra|]. unfold b, rdot. rewrite <- rsum_scal. apply rsum_ext. intros; ring.
      - unfold q, rform. rewrite <- rsum_scal. apply rsum_ext. intros i _. replace (rsum (nr Sg) (fun j => (ent Sg i j * (t * y j))%R)) with (t * rsum (nr Sg) (fun j => (ent Sg i j * y j)%R))%R; [ring|].
        rewrite <- rsum_scal. apply rsum_ext. intros; ring. }
    destruct (Rle_lt_or_eq_dec 0 q Hq) as [Lq|Eq].
    - pose proof (G (b / q)%R) as Gt. replace (b / q * (b / q) * q - 2 * (b / q) * b)%R with (- (b * b) / q)%R in Gt by (field; lra).
      assert (b * b <= 0)%R; [|nra]. apply Rnot_lt_le. intros Hb. assert (0 < b * b / q)%R by (apply Rdiv_lt_0_compat; assumption). unfold Rdiv in *. lra.
    - rewrite <- Eq in G. pose proof (G 1%R). pose proof (G (-1)%R). lra. }
  intros i Hi. pose proof (inv_sym Sg Vm Sy HI) as (_ & SV).
  (* x = V S x *)
  destruct HI as (q0 & q1 & q2 & IV). assert (R1 : forall r, (r < nr Sg)%nat -> rmv Sg x r = 0%R).
  { intros r Hr. pose proof (Z (ebasis r)) as Zr. unfold rdot, ebasis in Zr. rewrite (rsum_single (nr Sg) _ r Hr), Nat.eqb_refl in Zr; [lra|]. intros s _ Hs. destruct (Nat.eqb_spec s r); [congruence|ring]. }
  transitivity (rsum (nr Sg) (fun j => rsum (nr Sg) (fun r => ent Sg i r * ent Vm r j) * x j)%R).
  - rewrite (rsum_single (nr Sg) _ i Hi); [rewrite IV by exact Hi; unfold rident; rewrite Nat.eqb_refl; ring|]. intros j Hj Hne. rewrite IV by assumption. unfold rident. destruct (Nat.eqb_spec i j); [congruence|ring].
  - rewrite q1 in SV. 
    (* (S V)_{ij} = (V S)_{ij} transposed: use symmetry of both *)
    transitivity (rsum (nr Sg) (fun j => rsum (nr Sg) (fun r => ent Vm i r * ent Sg r j) * x j)%R).
    + apply rsum_ext. intros j Hj. f_equal. rewrite IV by assumption. transitivity (rsum (nr Sg) (fun r => ent Sg j r * ent Vm r i)%R).
      * rewrite IV by assumption. unfold rident. now rewrite Nat.eqb_sym.
      * apply rsum_ext. intros r Hr. rewrite (SV r i Hr Hi). rewrite (proj2 Sy j r Hj Hr). ring.
    + transitivity (rsum (nr Sg) (fun r => (ent Vm i r * rmv Sg x r)%R)).
      * transitivity (rsum (nr Sg) (fun j => rsum (nr Sg) (fun r => (ent Vm i r * ent Sg r j * x j)%R))).
        -- apply rsum_ext. intros j _. rewrite Rmult_comm, <- rsum_scal. apply rsum_ext. intros; ring.
        -- rewrite rsum_swap. apply rsum_ext. intros r _. unfold rmv. rewrite <- rsum_scal. apply rsum_ext. intros; ring.
      * rewrite (rsum_ext _ _ (fun _ => 0%R)); [|intros r Hr; rewrite R1 by exact Hr; ring]. clear. induction (nr Sg) as [|n IH]; cbn; [reflexivity|rewrite IH; ring].
Qed.
Lemma definite_rinj Sg Sg' Vm : nr Sg = nr Sg' -> nr Sg' = nc Sg' -> rpsd Sg -> inv_of Sg Vm -> (forall z, (rform Sg z <= rform Sg' z)%R) -> rinj Sg'.
Proof.
  intros n n' IP HI LE x Hx j Hj. apply (inv_definite Sg Vm x IP HI); [|congruence]. apply Rle_antisym; [|apply IP].
  apply Rle_trans with (rform Sg' x); [apply LE|]. apply Req_le. unfold rform. rewrite (rsum_ext _ _ (fun _ => 0%R)).
  - clear. induction (nr Sg') as [|m IH]; cbn; [reflexivity|rewrite IH; ring].
  - intros i Hi. rewrite n'. rewrite (Hx i Hi). ring.
Qed.

(** ** Leading blocks of complex matrices *)
Definition cpad (k : nat) (z : nat -> C) : nat -> C := fun i => if Nat.ltb i k then z i else RtoC 0.
Lemma csum_pad n k (f : nat -> C) : (k <= n)%nat -> (forall i, (k <= i < n)%nat -> f i = RtoC 0) -> csum n f = csum k f.
Proof.
  intros Hk Hf. induction n as [|n IH]; [now replace k with 0%nat by lia|]. destruct (Nat.eq_dec k (S n)) as [->|Hne]; [reflexivity|].
  cbn [csum]. rewrite IH by (try lia; intros; apply Hf; lia). rewrite (Hf n) by lia. ring.
Qed.
Lemma qform_block (Q' : cmat) k z : (k <= nr Q')%nat -> (k <= nc Q')%nat -> qform (Mat k k (ent Q')) z = qform Q' (cpad k z).
Proof.
  intros h1 h2. unfold qform. cbn [nr nc ent]. symmetry. rewrite (csum_pad (nr Q') k _ h1).
  - apply csum_ext. intros i Hi. rewrite (csum_pad (nc Q') k _ h2).
    + apply csum_ext. intros j Hj. unfold cpad. destruct (Nat.ltb_spec i k); [|lia]. destruct (Nat.ltb_spec j k); [|lia]. reflexivity.
    + intros j Hj. unfold cpad at 2. destruct (Nat.ltb_spec j k); [lia|ring].
  - intros i Hi. apply csum_0. intros j _. unfold cpad at 1. destruct (Nat.ltb_spec i k); [lia|]. rewrite Cconj_RtoC. ring.
Qed.
Lemma psd_block (Q' : cmat) k : psd Q' -> (k <= nr Q')%nat -> psd (Mat k k (ent Q')).
Proof.
  intros ((n1 & E) & Hp) le. split.
  - split; [reflexivity|]. cbn. intros i j Hi Hj. apply (E i j); lia.
  - intros z. rewrite qform_block by lia. apply Hp.
Qed.
Lemma qform_split (Q' : cmat) k v : psd Q' -> (k <= nr Q')%nat -> (forall i j, (i < k)%nat -> (k <= j < nr Q')%nat -> ent Q' i j = RtoC 0 /\ ent Q' j i = RtoC 0) ->
  (Re (qform (Mat k k (ent Q')) v) <= Re (qform Q' v))%R.
Proof.
  intros PQ le Hz. pose proof PQ as ((n1 & _) & Hp). rewrite qform_block by lia.
  set (v1 := cpad k v). set (v2 := fun i => if Nat.ltb i k then RtoC 0 else v i).
  assert (Ev : forall i, v i = RtoC 1 * v1 i + RtoC 1 * v2 i) by (intros i; unfold v1, v2, cpad; destruct (Nat.ltb i k); ring).
  assert (Eq : qform Q' v = bform Q' (fun i => RtoC 1 * v1 i + RtoC 1 * v2 i) (fun i => RtoC 1 * v1 i + RtoC 1 * v2 i)).
  { rewrite <- bform_qform. apply bform_ext_lt; intros i _; apply Ev. }
  rewrite Eq, bform_lin, !bform_alin.
  assert (X1 : bform Q' v1 v2 = RtoC 0).
  { unfold bform. apply csum_0. intros i Hi. apply csum_0. intros j Hj. unfold v1, v2, cpad. destruct (Nat.ltb_spec i k); [|rewrite Cconj_RtoC; ring]. destruct (Nat.ltb_spec j k); [ring|]. rewrite (proj1 (Hz i j ltac:(lia) ltac:(lia))). ring. }
  assert (X2 : bform Q' v2 v1 = RtoC 0).
  { unfold bform. apply csum_0. intros i Hi. apply csum_0. intros j Hj. unfold v1, v2, cpad. destruct (Nat.ltb_spec i k); [rewrite Cconj_RtoC; ring|]. destruct (Nat.ltb_spec j k); [|ring]. rewrite (proj2 (Hz j i ltac:(lia) ltac:(lia))). ring. }
  rewrite X1, X2, !bform_qform, !Cconj_RtoC.
  replace (RtoC 1 * (RtoC 1 * qform Q' v1 + RtoC 1 * RtoC 0) + RtoC 1 * (RtoC 1 * RtoC 0 + RtoC 1 * qform Q' v2)) with (qform Q' v1 + qform Q' v2) by ring.
  rewrite Re_plus. pose proof (Hp v2). lra.
Qed.
