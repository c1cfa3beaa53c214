(** Property theorems for multi-index factorials and coefficients (C09 of properties.jsonl). *)
From Verif Require Import Base MultiIndex MultiIndexFacts MultiCapFacts Fld FldInst MultiCoef MultiCoefFacts WordCount ExNum.
From Coq Require Import QArith.
Local Open Scope fld_scope.

Theorem C09_binom : forall (F : fld) a b, length a = length b -> (forall i, (i < length a)%nat -> (nth i b 0 <= nth i a 0)%nat) ->
  mi_binom (F := F) a b = Ok (kofnat (fold_right Nat.mul 1%nat (map (fun p => binomial (fst p) (snd p)) (combine a b)))).
Proof. exact @binom_product. Qed.
Print Assumptions C09_binom.
(** A negative component of [a - b] is rejected. *)
Theorem C09_binom_negative : forall (F : fld) a b i, length a = length b -> (nth i a 0 < nth i b 0)%nat -> mi_binom (F := F) a b = Err ValueError.
Proof. exact @binom_negative. Qed.
Print Assumptions C09_binom_negative.
(** The number of words in which every letter [i] occurs [a_i] times *)
Theorem C09_multinom_words : forall (F : fld) a W, NoDup W -> (forall w, In w W <-> forall i, count_occ Nat.eq_dec w i = nth i a 0%nat) ->
  multinom (F := F) a = kofnat (length W).
Proof. intros F a W HN HW. rewrite multinom_mnom. f_equal. symmetry. apply words_mnom; assumption. Qed.
Print Assumptions C09_multinom_words.
Theorem C09_multinom_positive : forall (F : fld) a, exists k, (0 < k)%nat /\ multinom (F := F) a = kofnat k /\ (k * fold_right Nat.mul 1%nat (map fact a) = fact (list_sum a))%nat.
Proof. exact @multinom_positive. Qed.
Print Assumptions C09_multinom_positive.
Theorem C09_words_exist : forall a, exists W, NoDup W /\ forall w, In w W <-> forall i, count_occ Nat.eq_dec w i = nth i a 0%nat.
Proof. intros a. exists (ws (list_sum a) a). split; [apply ws_NoDup; reflexivity|]. intros w. apply ws_spec. reflexivity. Qed.
Print Assumptions C09_words_exist.
Theorem C09_multinom_general : forall (F : fld) r a, (list_sum a <= r)%nat ->
  exists v, multinom_general (F := F) r a = Ok v /\ v * (kofnat (fact (r - list_sum a)) * kofnat (fold_right Nat.mul 1%nat (map fact a))) = kofnat (fact r).
Proof. exact @multinom_general_value. Qed.
Print Assumptions C09_multinom_general.
(** (x_1 + ... + x_n)^r *)
Theorem C09_multinomial_theorem : forall (F : fld) (x : list F) r, x <> [] ->
  exists mis, generate_all_exact_norm (length x) r = Ok mis /\
    exists pw, mapM (power x) mis = Ok pw /\
      ksum (combine mis pw) (fun ap => multinom (fst ap) * snd ap) = kpow (ksum x (fun v => v)) r.
Proof. exact @multinomial_sum. Qed.
Print Assumptions C09_multinomial_theorem.

Example C09_example : (qval (mi_binom (F := QcF) [5; 3; 2] [2; 3; 1]), qval (Ok (multinom (F := QcF) [2; 1; 1])), qval (multinom_general (F := QcF) 4 [2; 1]), length (ws 4 [2; 1; 1]), hd [] (ws 4 [2; 1; 1]))%nat
  = (Some 20%Q, Some 12%Q, Some 12%Q, 12%nat, [0; 0; 1; 2]%nat).
Proof. vm_compute. reflexivity. Qed.
Example C09_example_theorem : exists mis pw, generate_all_exact_norm 2 2 = Ok mis /\ mapM (power [rat 1 2; rat 3 1]) mis = Ok pw /\ length mis = 3%nat /\
  qlist [ksum (combine mis pw) (fun ap => multinom (fst ap) * snd ap)] = [(49#4)%Q].
Proof. eexists. eexists. split; [vm_compute; reflexivity|]. split; [vm_compute; reflexivity|]. split; reflexivity. Qed.
