(** * PropText2: C78, printed matrices, JSON, and the names of the enumerations *)
From Coq Require Import List Arith Bool Ascii String ZArith QArith Lia.
From Verif Require Import TextModel TextProofs PropText.
Import ListNotations.
Local Open Scope nat_scope.

(** ** Printed matrices *)

(** no two vectors, and no two rectangular matrices, are printed alike; a matrix with a row shorter than the first is not printed *)
Theorem C78_print : (forall v w, getStringFromVec v = getStringFromVec w -> v = w) /\
  (forall m n M N, rect m M -> rect n N -> (exists t, getStringFromMat M = Ok t /\ getStringFromMat N = Ok t) -> M = N) /\
  (forall m M, rect m M -> exists t, getStringFromMat M = Ok t) /\
  (forall r M, ~ Forall (fun q : list bool => List.length r <= List.length q) M -> getStringFromMat (r :: M) = Err OutOfRange).
Proof. split; [exact showVec_inj|]. split; [|split].
  - intros m n M N HM HN (t & E1 & E2). apply (showMat_inj m n); auto. congruence.
  - intros m M HM. destruct M as [|r M]; [eexists; reflexivity|]. eexists. apply (showMat_ok m); auto. discriminate.
  - intros r M H. unfold getStringFromMat. rewrite showRows_short; [reflexivity|]. intros H'. apply H. now inversion H'. Qed.

(** what is printed is not what is read: a printed matrix in a file is read as one check on one bit (the number of rows) and rows with nothing *)
Theorem C78_print_read : forall m M t, rect m M -> M <> [] -> fits (Z.of_nat (List.length M)) -> getStringFromMat M = Ok t ->
  importGf2MatrixFromFile (Some t) = Ok ([true] :: repeat [] (S (List.length M))).
Proof. exact print_import. Qed.

(** ** JSON *)

(** a result written to JSON cannot be read: the estimate was written as a string; the time is read before the exception *)
Theorem C78_json_result : forall r o, resFromJson (resToJson r) o = (mkRes (r_time r) (r_nodes o) (r_bools o), Some WrongType).
Proof. reflexivity. Qed.
(** and no JSON that the code writes has the member estimatedNodes, so that the reading would fail there *)
Theorem C78_json_result_nodes : forall r a o, (let j := JObj [("decodingTime(ms)"%string, JNat (r_time r)); ("estimate"%string, JArr (map JBool a))] in
    resFromJson j o = (mkRes (r_time r) (r_nodes o) a, Some NoMember)) /\ jat (resToJson r) "estimatedNodes" = None.
Proof. intros r a o. split; [|reflexivity]. cbv zeta. unfold resFromJson, seqs, getTo. cbn -[mapo].
  assert (E : mapo (fun e => match e with JBool b => Some b | _ => None end) (map JBool a) = Some a).
  { induction a as [|b a IH]; cbn; [reflexivity | now rewrite IH]. }
  rewrite E. reflexivity. Qed.
(** a record of a run: rate and size are read, then the exception; the rest of the object is as it was *)
Theorem C78_json_run : forall r o, runFromJson (runToJson r) o =
  (mkRun (ri_per r) (ri_size r) (ri_error o) (ri_syndrome o) (ri_status o) (ri_result o), Some WrongType).
Proof. reflexivity. Qed.
(** the three numbers of a code are read back, whatever its matrices *)
Theorem C78_json_code : forall hz hx p o, codeFromJson (codeToJson hz hx p) o = (p, None).
Proof. intros hz hx [n k d] o. reflexivity. Qed.

(** ** Names *)

(** the JSON names are read back, and what is no JSON name is read as the first value *)
Theorem C78_json_names : (forall s, statusFromJson (statusToJson s) = Some s) /\ (forall g, growthFromJson (growthToJson g) = Some g) /\
  (forall d, decoderFromJson (decoderToJson d) = Some d).
Proof. split; [|split]; intros []; vm_compute; reflexivity. Qed.
Lemma fromJson_default E (l : list (E * string)) e s l' j : l = (e, s) :: l' -> (forall m, In m l -> j <> JStr (list_ascii_of_string (snd m))) -> enumFromJson l j = Some e.
Proof. intros -> H. unfold enumFromJson. destruct j; try reflexivity.
  destruct (find (fun m => text_eqb (list_ascii_of_string (snd m)) t) ((e, s) :: l')) as [m|] eqn:F; [|reflexivity].
  apply find_some in F. destruct F as [Hm Ht]. unfold text_eqb in Ht. destruct (list_eq_dec ascii_dec (list_ascii_of_string (snd m)) t) as [Et|]; [|discriminate].
  exfalso. apply (H m Hm). now rewrite Et. Qed.
Theorem C78_json_default : forall j,
  (j <> JStr (list_ascii_of_string "failure") -> statusFromJson j = Some SUCCESS) /\
  ((forall m, In m (tl growthNames) -> j <> JStr (list_ascii_of_string (snd m))) -> growthFromJson j = Some AllC).
Proof. intros j.
  assert (D : forall t, {j = JStr t} + {j <> JStr t}).
  { intros t. destruct j as [n|q|b|t'|l|l]; try (right; discriminate). destruct (list_eq_dec ascii_dec t' t) as [-> | N]; [now left | right; congruence]. }
  split.
  - intros H. destruct (D (list_ascii_of_string "success")) as [-> | N]; [vm_compute; reflexivity|].
    unfold statusFromJson. eapply fromJson_default; [reflexivity|]. intros m [<- | [<- | []]]; cbn [snd]; auto.
  - intros H. destruct (D (list_ascii_of_string "all components")) as [-> | N]; [vm_compute; reflexivity|].
    unfold growthFromJson. eapply fromJson_default; [reflexivity|]. intros m [<- | Hm]; cbn [snd]; auto. Qed.

(** the functions ..FromString take exactly the names in upper case and the numbers *)
Lemma fromNames_spec E (l : list (string * E)) s e : fromNames l s = Some e -> In (s, e) l.
Proof. unfold fromNames. destruct (find (fun m => (fst m =? s)%string) l) as [[a b]|] eqn:F; cbn; [|discriminate]. intros H. injection H as <-.
  apply find_some in F. destruct F as [Hm Hs]. apply String.eqb_eq in Hs. cbn in Hs. now subst a. Qed.
Definition growthNumber (g : growthVariant) : string := match g with AllC => "0" | InvalidC => "1" | SingleSmallest => "2" | SingleRandom => "3" | SingleQubitRandom => "4" end.
Definition growthName (g : growthVariant) : string := match g with AllC => "ALL_COMPONENTS" | InvalidC => "INVALID_COMPONENTS"
  | SingleSmallest => "SINGLE_SMALLEST" | SingleRandom => "SINGLE_RANDOM" | SingleQubitRandom => "SINGLE_QUBIT_RANDOM" end.
Theorem C78_names : forall s,
  (forall g, growthVariantFromString s = Some g <-> s = growthName g \/ s = growthNumber g) /\
  (forall r, decodingResultStatusFromString s = Some r <-> s = (match r with SUCCESS => "SUCCESS" | FAILURE => "FAILURE" end)%string \/ s = (match r with SUCCESS => "0" | FAILURE => "1" end)%string) /\
  (forall d, decoderTypeFromString s = Some d <-> s = (match d with UfHeuristicT => "UF_HEURISTIC" | UfDecoderT => "ORIGINAL_UF" end)%string \/ s = (match d with UfHeuristicT => "0" | UfDecoderT => "1" end)%string).
Proof. intros s. split; [|split]; intros e; (split; [intros H; apply fromNames_spec in H; cbn in H | intros [-> | ->]; destruct e; vm_compute; reflexivity]);
  repeat (destruct H as [H | H]; [injection H as <- <-; auto|]); destruct H. Qed.
(** so that a name from a JSON file is no argument for them, but for UF_HEURISTIC; and their names in JSON are all read as the first value *)
Theorem C78_names_apart : (forall m, In m growthNames -> growthVariantFromString (snd m) = None) /\
  (forall m, In m statusNames -> decodingResultStatusFromString (snd m) = None) /\
  (forall m, In m decoderNames -> decoderTypeFromString (snd m) = (match fst m with UfHeuristicT => Some UfHeuristicT | UfDecoderT => None end)) /\
  (forall s g, growthVariantFromString s = Some g -> growthFromJson (JStr (list_ascii_of_string s)) = Some AllC) /\
  (forall s r, decodingResultStatusFromString s = Some r -> statusFromJson (JStr (list_ascii_of_string s)) = Some SUCCESS).
Proof. split; [|split; [|split; [|split]]].
  - intros m Hm. cbn in Hm. repeat (destruct Hm as [<- | Hm]; [vm_compute; reflexivity|]). destruct Hm.
  - intros m Hm. cbn in Hm. repeat (destruct Hm as [<- | Hm]; [vm_compute; reflexivity|]). destruct Hm.
  - intros m Hm. cbn in Hm. repeat (destruct Hm as [<- | Hm]; [vm_compute; reflexivity|]). destruct Hm.
  - intros s g H. apply C78_names in H. destruct H as [-> | ->]; destruct g; vm_compute; reflexivity.
  - intros s r H. apply C78_names in H. destruct H as [-> | ->]; destruct r; vm_compute; reflexivity. Qed.

(** ** Names in Python *)

(** the members of DecodingResultStatus in Python are called as two growth variants, and replace them in the module: *)
Theorem C78_python_names : 
  (forall name, pyModule name <> Some (PyGrowth AllC) /\ pyModule name <> Some (PyGrowth InvalidC)) /\
  pyModule "ALL_COMPONENTS" = Some (PyStatus SUCCESS) /\ pyModule "INVALID_COMPONENTS" = Some (PyStatus FAILURE) /\
  (forall g, g <> AllC -> g <> InvalidC -> pyModule (growthName g) = Some (PyGrowth g)) /\
  (forall name v, In (name, v) pyStatus -> decodingResultStatusFromString name = None).
Proof. split; [|split; [|split; [|split]]]; try (vm_compute; reflexivity).
  - intros name. destruct (String.eqb_spec name "ALL_COMPONENTS") as [-> | N1]; [split; vm_compute; discriminate|].
    destruct (String.eqb_spec name "INVALID_COMPONENTS") as [-> | N2]; [split; vm_compute; discriminate|].
    assert (H : forall v, pyModule name = Some v -> In (name, v) (rev (pyGrowth ++ pyStatus ++ pyDecoder))) by (intros v; apply fromNames_spec).
    split; intros E; apply H in E; cbn in E; repeat (destruct E as [E | E]; [congruence|]); destruct E.
  - intros [] H1 H2; try congruence; vm_compute; reflexivity.
  - intros name v H. cbn in H. repeat (destruct H as [H | H]; [injection H as <- <-; vm_compute; reflexivity|]). destruct H. Qed.

(** ** Witnesses *)
Local Open Scope string_scope.
Notation tx := list_ascii_of_string.
(** a file with signs, tabs, carriage returns and comments; with commas; with glued entries; cut lines *)
Example C78_nonvacuous :
  importGf2MatrixFromFile (Some (tx " 1	0  -7
+1 1 0 # comment 1
")) = Ok [[true; false; true]; [true; true; false]]%list /\
  importGf2MatrixFromFile (Some (tx "1,0,1
0,1,1")) = Ok [[true]; [false]]%list /\
  importGf2MatrixFromFile (Some (tx "101
99999999999 1

1")) = Ok [[true]; []; []; [true]]%list /\
  (exists l, row_text l [true; false]%list /\ one_line l) /\
  getStringFromMat [[true; false]; [true; true]]%list = Ok (tx "2x2matrix [
[1,0],
[1,1]
]") /\
  codeFromPath (fun p => if (p =? "h")%string then Some (tx "1 0 1
1 0
") else None) "h" = Ok (codeZ [[true; false; true]; [true; false]]%list).
Proof. split; [vm_compute; reflexivity|]. split; [vm_compute; reflexivity|]. split; [vm_compute; reflexivity|].
  split; [exists (spaced [true; false]%list); split; [apply spaced_row | apply spaced_line]|]. split; vm_compute; reflexivity. Qed.
(** printing is not one to one when rows are longer than the first *)
Example C78_print_refuted : exists M N : list (list bool), M <> N /\ getStringFromMat M = getStringFromMat N.
Proof. exists [[true]; [true]]%list, [[true]; [true; false]]%list. split; [discriminate | reflexivity]. Qed.

Print Assumptions C78_reads.
Print Assumptions C78_roundtrip.
Print Assumptions C78_stops.
Print Assumptions C78_overflow.
Print Assumptions C78_every_line.
Print Assumptions C78_commas.
Print Assumptions C78_glued.
Print Assumptions C78_code.
Print Assumptions C78_code2.
Print Assumptions C78_no_file.
Print Assumptions C78_blank_line.
Print Assumptions C78_print.
Print Assumptions C78_print_read.
Print Assumptions C78_json_result.
Print Assumptions C78_json_run.
Print Assumptions C78_json_names.
Print Assumptions C78_json_default.
Print Assumptions C78_names.
Print Assumptions C78_names_apart.
Print Assumptions C78_python_names.
