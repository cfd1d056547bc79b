(** Soundness of the parser: what it accepts is spelled as ParseSpec.v says, and no action panics. *)
From Verif Require Import Base BaseProofs Ast Lex LexSpec LRTables LRCert Parse LRProofs ParseSpec ParseLex ParseProofs ParseRules ParseStmts.
Local Open Scope list_scope.

Definition numbers : list Z := Eval vm_compute in map Z.of_nat (seq 2 147).
Lemma all_cases : Forall case numbers.
Proof. exact (Forall_cons 2%Z rule_2 (Forall_cons 3%Z rule_3 (Forall_cons 4%Z rule_4 (Forall_cons 5%Z rule_5 (Forall_cons 6%Z rule_6 (Forall_cons 7%Z rule_7 (Forall_cons 8%Z rule_8 (Forall_cons 9%Z rule_9 (Forall_cons 10%Z rule_10 (Forall_cons 11%Z rule_11 (Forall_cons 12%Z rule_12 (Forall_cons 13%Z rule_13 (Forall_cons 14%Z rule_14 (Forall_cons 15%Z rule_15 (Forall_cons 16%Z rule_16 (Forall_cons 17%Z rule_17 (Forall_cons 18%Z rule_18 (Forall_cons 19%Z rule_19 (Forall_cons 20%Z rule_20 (Forall_cons 21%Z rule_21 (Forall_cons 22%Z rule_22 (Forall_cons 23%Z rule_23 (Forall_cons 24%Z rule_24 (Forall_cons 25%Z rule_25 (Forall_cons 26%Z rule_26 (Forall_cons 27%Z rule_27 (Forall_cons 28%Z rule_28 (Forall_cons 29%Z rule_29 (Forall_cons 30%Z rule_30 (Forall_cons 31%Z rule_31 (Forall_cons 32%Z rule_32 (Forall_cons 33%Z rule_33 (Forall_cons 34%Z rule_34 (Forall_cons 35%Z rule_35 (Forall_cons 36%Z rule_36 (Forall_cons 37%Z rule_37 (Forall_cons 38%Z rule_38 (Forall_cons 39%Z rule_39 (Forall_cons 40%Z rule_40 (Forall_cons 41%Z rule_41 (Forall_cons 42%Z rule_42 (Forall_cons 43%Z rule_43 (Forall_cons 44%Z rule_44 (Forall_cons 45%Z rule_45 (Forall_cons 46%Z rule_46 (Forall_cons 47%Z rule_47 (Forall_cons 48%Z rule_48 (Forall_cons 49%Z rule_49 (Forall_cons 50%Z rule_50 (Forall_cons 51%Z rule_51 (Forall_cons 52%Z rule_52 (Forall_cons 53%Z rule_53 (Forall_cons 54%Z rule_54 (Forall_cons 55%Z rule_55 (Forall_cons 56%Z rule_56 (Forall_cons 57%Z rule_57 (Forall_cons 58%Z rule_58 (Forall_cons 59%Z rule_59 (Forall_cons 60%Z rule_60 (Forall_cons 61%Z rule_61 (Forall_cons 62%Z rule_62 (Forall_cons 63%Z rule_63 (Forall_cons 64%Z rule_64 (Forall_cons 65%Z rule_65 (Forall_cons 66%Z rule_66 (Forall_cons 67%Z rule_67 (Forall_cons 68%Z rule_68 (Forall_cons 69%Z rule_69 (Forall_cons 70%Z rule_70 (Forall_cons 71%Z rule_71 (Forall_cons 72%Z rule_72 (Forall_cons 73%Z rule_73 (Forall_cons 74%Z rule_74 (Forall_cons 75%Z rule_75 (Forall_cons 76%Z rule_76 (Forall_cons 77%Z rule_77 (Forall_cons 78%Z rule_78 (Forall_cons 79%Z rule_79 (Forall_cons 80%Z rule_80 (Forall_cons 81%Z rule_81 (Forall_cons 82%Z rule_82 (Forall_cons 83%Z rule_83 (Forall_cons 84%Z rule_84 (Forall_cons 85%Z rule_85 (Forall_cons 86%Z rule_86 (Forall_cons 87%Z rule_87 (Forall_cons 88%Z rule_88 (Forall_cons 89%Z rule_89 (Forall_cons 90%Z rule_90 (Forall_cons 91%Z rule_91 (Forall_cons 92%Z rule_92 (Forall_cons 93%Z rule_93 (Forall_cons 94%Z rule_94 (Forall_cons 95%Z rule_95 (Forall_cons 96%Z rule_96 (Forall_cons 97%Z rule_97 (Forall_cons 98%Z rule_98 (Forall_cons 99%Z rule_99 (Forall_cons 100%Z rule_100 (Forall_cons 101%Z rule_101 (Forall_cons 102%Z rule_102 (Forall_cons 103%Z rule_103 (Forall_cons 104%Z rule_104 (Forall_cons 105%Z rule_105 (Forall_cons 106%Z rule_106 (Forall_cons 107%Z rule_107 (Forall_cons 108%Z rule_108 (Forall_cons 109%Z rule_109 (Forall_cons 110%Z rule_110 (Forall_cons 111%Z rule_111 (Forall_cons 112%Z rule_112 (Forall_cons 113%Z rule_113 (Forall_cons 114%Z rule_114 (Forall_cons 115%Z rule_115 (Forall_cons 116%Z rule_116 (Forall_cons 117%Z rule_117 (Forall_cons 118%Z rule_118 (Forall_cons 119%Z rule_119 (Forall_cons 120%Z rule_120 (Forall_cons 121%Z rule_121 (Forall_cons 122%Z rule_122 (Forall_cons 123%Z rule_123 (Forall_cons 124%Z rule_124 (Forall_cons 125%Z rule_125 (Forall_cons 126%Z rule_126 (Forall_cons 127%Z rule_127 (Forall_cons 128%Z rule_128 (Forall_cons 129%Z rule_129 (Forall_cons 130%Z rule_130 (Forall_cons 131%Z rule_131 (Forall_cons 132%Z rule_132 (Forall_cons 133%Z rule_133 (Forall_cons 134%Z rule_134 (Forall_cons 135%Z rule_135 (Forall_cons 136%Z rule_136 (Forall_cons 137%Z rule_137 (Forall_cons 138%Z rule_138 (Forall_cons 139%Z rule_139 (Forall_cons 140%Z rule_140 (Forall_cons 141%Z rule_141 (Forall_cons 142%Z rule_142 (Forall_cons 143%Z rule_143 (Forall_cons 144%Z rule_144 (Forall_cons 145%Z rule_145 (Forall_cons 146%Z rule_146 (Forall_cons 147%Z rule_147 (Forall_cons 148%Z rule_148 (Forall_nil _)))))))))))))))))))))))))))))))))))))))))))))))))))))))))))))))))))))))))))))))))))))))))))))))))))))))))))))))))))))))))))))))))))))))))))))))))))). Qed.
Lemma rule_number r A rhs : r <> 1%Z -> rule r = Some (A, rhs) -> In r numbers.
Proof.
  unfold rule. intros N H. destruct (r <=? 0)%Z eqn:E; [discriminate|]. apply Z.leb_gt in E.
  assert (L : Z.to_nat r - 1 < 148) by (apply (proj1 (nth_error_Some rules (Z.to_nat r - 1))); now rewrite H).
  change numbers with (map Z.of_nat (seq 2 147)). apply in_map_iff. exists (Z.to_nat r). split; [lia|]. apply in_seq. lia.
Qed.
Lemma good_reduce q p r A rhs f vs ts a : r <> 1%Z -> rule r = Some (A, rhs) ->
  nth_error actions (Z.to_nat r - 1) = Some f -> action p a = Reduce r -> (0 <= a < 63)%Z -> legit ts -> args_ok good q rhs vs ts a p ->
  In q (preds_of (goto_ q (- A))) -> chk (goto_ q (- A)) = A ->
  exists v, f vs = Some v /\ good (goto_ q (- A)) v ts a.
Proof.
  intros N ER EF EA LA LG AO GI GK. pose proof all_cases as AC. rewrite Forall_forall in AC.
  specialize (AC r (rule_number _ _ _ N ER)). destruct (AC A rhs f ER EF q p vs ts a EA LA LG AO GI GK) as (v & EV & G).
  exists v. split; [assumption|]. unfold good. now rewrite GK.
Qed.
Theorem run_sound fuel l o : legit l -> run fuel (initial l) = Some o ->
  match o with
  | Accepted stmts => exists ts eof rest, l = ts ++ eof :: rest /\ is KEof eof /\ program stmts ts
  | Rejected => True
  | Panicked => False
  end.
Proof.
  intros LG H. pose proof (run_good good legit legit_infix good_shift good_reduce fuel l o LG H) as R.
  assert (D : forall vs ts a p, args_ok good 0 [N_stmts; T_EOF] vs ts a p ->
     exists stmts f v t eof, vs = VStmts stmts f :: v /\ ts = t ++ [eof] /\ is KEof eof /\ program stmts t).
  { intros vs ts a p AO. take AO (l0 & f & k & -> & A & _). tok AO e. done_args AO. exists l0, f, [VTok e], t, e. repeat split; auto. now exists k. }
  destruct o as [stmts| |]; [| exact Logic.I |].
  - destruct R as (ts & rest & f & v & p & -> & AO). destruct (D _ _ _ _ AO) as (s1 & f1 & v1 & t & eof & E & -> & K & P).
    injection E as -> _ _. exists t, eof, rest. rewrite <- app_assoc. auto.
  - destruct R as (ts & rest & vs & p & -> & AO & NE). destruct (D _ _ _ _ AO) as (s1 & f1 & v1 & t & eof & E & _). now apply NE in E.
Qed.
