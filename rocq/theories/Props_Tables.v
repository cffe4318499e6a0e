(** Property theorems C18-C21: the lookup tables.  Statements only. *)
From Coq Require Import String Ascii.
From Coq Require Import List Arith Lia Bool ZArith Field.
From Verif Require Import ListAux FieldDef FpInst MleMath M_Mle P_Mle M_Interp M_Sumcheck M_ScParallel M_SamePoly
  M_LogUp M_Lookup M_Tables P_Tables P_Tables2 P_Tables3 P_Tables4.
Import ListNotations.

(** C18.  For every table type: the columns exist, each has 2^vars entries, and at every point of that many
    coordinates the verifier's closed forms, followed by the evaluation of the committed column if the table
    has one, are the multilinear extensions of the materialised columns. *)
Theorem C18_closed_forms : forall (K : field) B FL ls t, table_ok B t ->
  exists nv cols cc, table_vars B t = Some nv /\ table_columns (K:=K) B FL ls t = Some cols /\
    length cols = table_width t /\ (forall c, In c cols -> length c = 2 ^ nv) /\
    committed_columns B FL ls t = Some cc /\
    forall esch pt, length pt = nv -> valid_sched nv esch ->
      exists evs, evaluate_table_columns B esch t pt = Some evs /\
        match cc with
        | None => evs = map (fun c => mle c pt) cols
        | Some m => exists e, evaluate esch m pt = Some e /\ evs ++ [e] = map (fun c => mle c pt) cols
        end.
Proof. exact @closed_forms. Qed.
Print Assumptions C18_closed_forms.

(** A point of the wrong length is refused (the error table has no closed form and looks at no point). *)
Theorem C18_wrong_length : forall (K : field) B t esch (pt : list K) nv, table_vars B t = Some nv -> length pt <> nv ->
  (forall q a, t <> TError q a) -> evaluate_table_columns B esch t pt = None.
Proof. exact @closed_forms_len. Qed.
Print Assumptions C18_wrong_length.

Definition ex_fl : floats := mkFloats (fun x => x / 2)%Z (fun a b => a + b)%Z (fun a b => a * b)%Z (fun _ => "x"%string).
Definition id_sched : nat -> list nat := fun n => seq 0 n.
Example C18_ex_ok : table_ok 3 TRelu /\ table_ok 3 (TClamping 5) /\ table_ok 3 (TGELU 2 (-4) 4) /\ table_ok 3 (TZero 2) /\ table_ok 3 (TError 20 3).
Proof. split; [cbn; lia|]. split; [cbn; lia|]. split; [exists 2; auto|]. split; [exact I|]. cbn. lia. Qed.
(** ReLU with 3 bits at the point (5, 7, 11). *)
Example C18_ex_run :
  match evaluate_table_columns (K:=F101) 3 id_sched TRelu (q_list [5; 7; 11]%Z), table_columns (K:=F101) 3 ex_fl 0 TRelu with
  | Some evs, Some cols => map (fpv 101) evs = [59; 7]%Z /\ map (fpv 101) (map (fun c => mle c (q_list [5; 7; 11]%Z)) cols) = [59; 7]%Z
  | _, _ => False end.
Proof. vm_compute. auto. Qed.

(** C19. *)
Theorem C19_merged_keys_injective : forall a b a' b', (Z.abs a < 2 ^ 31)%Z -> (Z.abs a' < 2 ^ 31)%Z ->
  merged_key [a; b] = merged_key [a'; b'] -> a = a' /\ b = b'.
Proof. exact @keys_injective. Qed.
Print Assumptions C19_merged_keys_injective.
(** The key of a row in range fits in an i64, so computing it does not overflow. *)
Theorem C19_no_overflow : forall a b, (Z.abs a < 2 ^ 31)%Z -> (Z.abs b < 2 ^ 31)%Z -> (- 2 ^ 63 <= merged_key [a; b] < 2 ^ 63)%Z.
Proof. exact @keys_bound. Qed.
Print Assumptions C19_no_overflow.
(** The bound is tight. *)
Theorem C19_bound_tight_refuted : merged_key [2 ^ 31; 0]%Z = merged_key [- 2 ^ 31; 1]%Z.
Proof. exact keys_collide. Qed.
Print Assumptions C19_bound_tight_refuted.
Example C19_ex : merged_key [-5; 3]%Z = 12884901883%Z /\ merged_key [5; -3]%Z = (-12884901883)%Z.
Proof. split; reflexivity. Qed.

(** C20.  Every table but the error table holds exactly the intended rows. *)
Theorem C20_coverage : forall B FL ls t, 0 < B -> table_ok B t -> (forall q a, t <> TError q a) ->
  exists rows, table_rows B FL ls t = Some rows /\ forall row, In row rows <-> table_spec B FL ls t row.
Proof. exact @coverage. Qed.
Print Assumptions C20_coverage.
(** The pair an honest ReLU looks up is a row. *)
Theorem C20_relu_inputs : forall B FL ls x, 0 < B -> (q_min B <= x <= q_max B)%Z ->
  exists rows, table_rows B FL ls TRelu = Some rows /\ In [x; relu_apply x] rows.
Proof. exact @relu_inputs. Qed.
Print Assumptions C20_relu_inputs.
(** Up to 8 bits, an honest GELU accepts every quantised input and looks up a row. *)
Theorem C20_gelu_inputs : forall B FL ls mu t x, 0 < B <= 8 -> gelu_quantize mu = Some t -> (q_min B <= x <= q_max B)%Z ->
  exists a b rows, gelu_lookup FL t x = Some (a, b) /\ a = (x * mu)%Z /\ table_rows B FL ls t = Some rows /\ In [a; b] rows.
Proof. exact @gelu_inputs. Qed.
Print Assumptions C20_gelu_inputs.
Example C20_ex_gelu : gelu_quantize 5 = Some (TGELU 5 (-1024) 1024) /\ gelu_lookup ex_fl (TGELU 5 (-1024) 1024) (-127) = Some (-635, -318)%Z.
Proof. split; reflexivity. Qed.
(** With 9 bits (the length is configurable) the layer accepts an input whose pair is not in the table. *)
Theorem C20_gelu_9_bits_refuted : forall FL ls, exists t x a b rows, gelu_quantize 4 = Some t /\ (q_min 9 <= x <= q_max 9)%Z /\
  gelu_lookup FL t x = Some (a, b) /\ table_rows 9 FL ls t = Some rows /\ ~ In [a; b] rows.
Proof. exact gelu_9_bits. Qed.
Print Assumptions C20_gelu_9_bits_refuted.
(** Exact content of the error table: the intended values are cut off at the table size, and a zero row is
    added when there is room. *)
Theorem C20_error_rows : forall FL ls B q1 ae, (0 < ae)%Z ->
  exists nv rows, error_vars ae = Some nv /\ table_rows B FL ls (TError q1 ae) = Some rows /\ (2 * ae <= 2 ^ Z.of_nat nv)%Z /\
    forall row, In row rows <->
      ((exists x, (q1 - ae <= x <= q1 + ae)%Z /\ (x < q1 - ae + 2 ^ Z.of_nat nv)%Z /\ row = [x]) \/ (2 * ae + 1 < 2 ^ Z.of_nat nv)%Z /\ row = [0%Z]).
Proof. exact error_rows_ok. Qed.
Print Assumptions C20_error_rows.
(** For a power-of-two error the largest allowed value is missing. *)
Theorem C20_error_missing_refuted : forall FL ls B q1 k, exists rows, table_rows B FL ls (TError q1 (2 ^ Z.of_nat k)) = Some rows /\
  ~ In [q1 + 2 ^ Z.of_nat k]%Z rows.
Proof. exact error_missing. Qed.
Print Assumptions C20_error_missing_refuted.
(** For other errors the table contains 0, which is no allowed value: a softmax row summing to 0 passes. *)
Theorem C20_error_zero_refuted : forall FL ls B, exists rows, table_rows B FL ls (TError 128 5) = Some rows /\ In [0]%Z rows /\ ~ (128 - 5 <= 0 <= 128 + 5)%Z.
Proof. exact error_extra. Qed.
Print Assumptions C20_error_zero_refuted.
(** No allowed error between 2 and the quantised one gives the intended table. *)
Theorem C20_error_never_refuted : forall FL ls B q1 ae, (1 < ae)%Z -> (ae < q1)%Z ->
  exists rows, table_rows B FL ls (TError q1 ae) = Some rows /\ ~ (forall row, In row rows <-> table_spec B FL ls (TError q1 ae) row).
Proof. exact error_never. Qed.
Print Assumptions C20_error_never_refuted.
Example C20_ex_rows : table_rows 8 ex_fl 0 (TError 10 2) = Some [[8]; [9]; [10]; [11]]%Z /\ table_rows 8 ex_fl 0 (TError 10 3) = Some [[7]; [8]; [9]; [10]; [11]; [12]; [13]; [0]]%Z /\
  table_rows 2 ex_fl 0 TRelu = Some [[-2; 0]; [-1; 0]; [0; 0]; [1; 1]]%Z /\ table_rows 2 ex_fl 0 (TClamping 3) = Some [[-4; -1]; [-3; -1]; [-2; -1]; [-1; -1]; [0; 0]; [1; 1]; [2; 1]; [3; 1]]%Z.
Proof. repeat split. Qed.

(** C21.  Names are equal exactly for the listed pairs. *)
Theorem C21_names_exact : forall FL t t', (forall b, no_comma (fl_show FL b)) -> table_name FL t = table_name FL t' <-> same_name FL t t'.
Proof. exact names. Qed.
Print Assumptions C21_names_exact.
(** So if printing floats loses nothing and no two GELU tables, nor two Softmax tables of one temperature, are
    used together, different tables have different names. *)
Theorem C21_names_distinct_partial : forall FL t t', (forall b, no_comma (fl_show FL b)) -> (forall b b', fl_show FL b = fl_show FL b' -> b = b') ->
  (forall m lo hi m' lo' hi', t = TGELU m lo hi -> t' = TGELU m' lo' hi' -> t = t') ->
  (forall fb s k s' k', t = TSoftmax fb s k -> t' = TSoftmax fb s' k' -> t = t') ->
  table_name FL t = table_name FL t' -> t = t'.
Proof. exact names_distinct. Qed.
Print Assumptions C21_names_distinct_partial.
(** Two GELU layers with different input scales, and two Softmax tables of different sizes, clash. *)
Theorem C21_names_refuted : forall FL, (exists t t', t <> t' /\ table_ok 8 t /\ table_ok 8 t' /\ gelu_quantize 4 = Some t /\ gelu_quantize 3 = Some t' /\
    table_name FL t = table_name FL t') /\
  (forall fb k, TSoftmax fb 8 k <> TSoftmax fb 9 k /\ table_name FL (TSoftmax fb 8 k) = table_name FL (TSoftmax fb 9 k)).
Proof. exact names_clash. Qed.
Print Assumptions C21_names_refuted.
Example C21_ex : table_name ex_fl (TError (-20) 3) = "Error Table - quantised one: -20, allowable error: 3"%string /\ no_comma (fl_show ex_fl 7).
Proof. split; [reflexivity|]. cbn. repeat split; discriminate. Qed.
