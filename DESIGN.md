# Formal model of bazelbuild/buildtools in Rocq (Coq 8.16.1)

The model lives in `rocq/theories/` (logical prefix `Verif`). Nothing in `/repo` is run; every
definition of the model carries a comment with the file and lines it transcribes and every
simplification it makes.

## Layout

* `X.v` - executable model of the code (total Gallina functions, no proofs in them beyond termination).
* `XSpec.v` (where needed) - small independent specification of the property.
* `XProofs.v` - lemmas.
* `PropX.v` - property theorems only (`exact lemma. Qed. Print Assumptions`), with `Example`s that show
  that the hypotheses are met by concrete non-trivial inputs.

## Conventions

* Go `string`/`[]byte` = `list ascii` (`bytes`), i.e. arbitrary byte sequences. Go `rune` iteration is
  modelled only where the code's behaviour depends on it (UTF-8 decoding in `IsCorrectEscaping` and `\u`).
* Go `int` is unbounded `Z` or `nat`: no theorem is about wrap-around.
* Pointers to syntax nodes become values; a function that mutates a node returns the new one. Where
  aliasing matters (in-place deletion of slice elements in `ReplaceLoad`) the slice is modelled as a
  backing array plus a length.
* `sort.Stable` / `sort.Sort` / `sort.Slice` are modelled by insertion sort and, where the result
  depends on it, by "any sorted permutation".
* A run-time fault (index out of range, nil dereference) is an explicit error outcome (`None`/`Panic`).
* Goroutines and channels are transition systems; theorems quantify over every schedule.
* A property the code violates is kept at full strength and closed by `..._refuted` with a witness, and
  the largest provable part has the suffix `_partial`.

## Trusted base

* Coq 8.16.1's kernel (with `vm_compute`).
* `Print Assumptions` of every property theorem prints `Closed under the global context`: no axiom, not
  even a standard library one (see the list at the end of this file).
* The reading of the Go code into the model (cited lines), and the models of the Go standard library
  (`strings`, `path`, `sort`, `strconv.ParseInt`, `unicode/utf8`), in `Base.v` and where cited.

## Per-property plan

| id | model | proof |
|----|-------|-------|
| C01 | `quote`/`Unquote` byte loops | induction on the value with the decoder's accumulator generalised |
| C02 | `readQuotedStringBytes`-style scanner of lex.go | induction: the scanner state is invariant over escaped bytes |
| C03 | `strExpr` printing choice in print.go | case analysis on the token test + C01 |
| C04 | `Unquote` against an inductive escape grammar | equivalence by strong induction |
| C05 | `IsCorrectEscaping` with explicit out-of-range index | refuted with a witness; proved for runes < 256 |
| C06-C08 | `labels.Parse/Format/Shorten/Equal` | split lemmas for `strings.SplitN`, `path.Base` |
| C09 | `byStringExpr.Less` | lexicographic composition of strict total orders |
| C10-C13 | `SortStringList`, `sortStringExprs`, `deduplicateStringExprs` loops | loop invariants; refutations for the idempotence and comment parts |
| C14-C15 | `sortCallArgs`, `reorderArguments` | sorted permutation uniqueness; stable partition |
| C16-C21 | the load rewrites | loop invariants over the statement list |
| C22-C24 | `editOctals`, `editFloats`, `formatString` | value function on numerals; line-by-line induction |
| C25-C27, C29 | `removeParens`, `fixLabels`, leave-alone, `Rewrite` driver | structural induction on the tree |
| C28 | `walk1`, `walkOnce` | structural induction against an independent preorder listing |
| C30, C69 | the whole printer (`Print.v`: build/print.go as a state transformer over the buffer, pending comments, margin, depth), composed with lexer and parser | a relation between what has been printed so far and how the lexer reads it, kept by induction on the grammar derivation of the tree; then C67 |
| C31 | `assignComments` over preorder / postorder node lists | loop invariants |
| C32 | the lexer as a total function | measure induction |
| C33-C44 | the `edit` package operations on the AST | induction over lists / select trees |
| C45-C48, C50 | driver decision logic and concurrency as state machines | invariants over all schedules |
| C49 | `calculateDifference` | prefix/suffix algebra |
| C51 | `SplitOnSpaces` | induction |
| C52 | tables merging | map extensionality |
| C53, C54, C57 | `bzlmod`, include traversal | induction, well-founded measure |
| C55 | control-flow lint against a small-step/big-step semantics of statements | structural induction |
| C56 | `getFileType` | case analysis |
| C58 | `fixMultilinePlus`, `compactEmptyCalls` style layout rewrites (`Pipeline.v`) | a projection that forgets the flags commutes with every pass |
| C59, C60 | lint modes, warning filtering and disabling comments (`Lint.v`) | case analysis on the mode; interval characterisation |
| C61 | buildozer command files (`Buildozer.v`) | stability of grouping |
| C62 | `File.Rules`, `RuleNamed`, `RuleAt` (`RuleApi.v`) | equality with an independent preorder listing |
| C63 | `sortStringLists` marks (`Rewrite.v`, `SortMarksSpec.v`) | structural induction |
| C64 | `uninitializedVariableWarning` (`Scope.v`) against the runs of a function as traces of reads and bindings (`ScopeSpec.v`) | simultaneous induction on runs (soundness) and on statements (a run for every report) |
| C65 | the goyacc driver on the tables of parse.y.go (`Parse.v`, `LRTables.v`) | a decreasing measure on configurations, certified per state and lookahead |
| C66 | the same with the semantic actions | invariant of the stack (every value spells the tokens under it), certificate of predecessors of each state |
| C67 | the same | a stratified unambiguous grammar, LR items of every state checked by computation, simulation of derivations, embedding of the specification into derivations |
| C68 | lexer + actions + `assignComments` | multiset of comments is an invariant of lexing, of each action and of the assignment |
| C70 | the printer on trees without parentheses (`Group.v`, `GroupSpec.v`) | printing a tree equals printing it with the parentheses that `group` inserts (induction on the tree, precedence argument generalised); the grouped tree is one the grammar spells, so C30 applies |
| C71 | `UsedSymbols`, `GetTypes`, `UsedTypes`, `unusedLoadWarning` (`Used.v`) against an inductive reading of which parts of a file are code and which are annotations (`UsedSpec.v`) | induction on the tree for the set of names, induction on the list of statements with the map of names loaded so far as invariant |
| C72 | `cleanUnusedLoads` (`Used.v`) against the same specification | the same |
| C73, C74 | `packageOnTopWarning`, `movePackageDeclarationToTheTop` (`Fix.v`) on a list of statements | generalised loop invariants: indexes are split points, the stored cells are a merge of the two parts of the list |
| C75 | `removeVisibility`, `removeTestOnly` against a definition of what visibility and testonly a rule has | lookups related to `attr_is`; sorting equal lists |
| C76 | `splitOptionsWithSpaces` with strings.Fields, against how a shell splits words | induction on the text by runes |
| C77 | `shortenLabels` on top of the label model (C07) | `lists_changed` for each attribute, idempotence of shortening |
| C78 | `explicitHeuristicLabels` on maximal runs of characters | induction on the parts; the second pass is simulated piece by piece |
| C79 | `mergeLiteralLists`, `removeVarref` through `build.Edit`, for every compositional interpretation | induction on the height of the tree |
| C80, C81 | `usePlusEqual`, `moveToPackage` on a list of statements | induction on the list |
| C82 | `unnamedMacroWarning` over a repository given as a function, the order of Go's maps as a parameter | cache invariants for the search; the graph of the search is proved equal to an inductive definition over the files |
| C83 | `ValidateInputType`, `ValidateFormat`, `ValidateModes`, `ValidateWarnings`, `Config.Validate` (without tables) | case analysis; splitting a joined list is splitting its parts |
| C84 | `unsortedDictItemsWarning`, its replacements as an edit of the tree | strict weak order of the keys, stable insertion sort; the walker theorems of C28 |
| C85 | `attrConfigurationWarning`: findings, replacements, and what the walk itself leaves behind | decomposition of argument lists at the first keyword; walker theorems; counterexample by parsing and printing |
| C86 | `attrNonEmptyWarning`, `negateExpression`, `attrSingleFileWarning` as bottom-up edits | the same; an abstract reading of boolean expressions |
| C87 | `notLoadedUsageCheck`, `insertLoad`, the environment of bzlenv as a function of the nodes above | inductive binding rules; correspondence between the nodes of the edited and the old tree |
| C88 | keyword-positional-params: KwParams.v models the signatures table, paramType, functionName, makePositional, the loop over the arguments and IntsAreSorted; rewriting from the leaves up (rebuild). PropKw.v: own table and binding rules (`passed`: positional values to the first parameters, named ones by name, nothing twice, nothing unknown); by induction over the arguments. |
| C89 | ctx-actions, output-group: CtxActions.v models the replacements with the aliasing of the Go code (a flag says whether a replacement is written to a place still in the tree). PropCtx.v: `api`, a table of old and new calls; by induction on the height of the tree, for files where such calls are apart, and a weaker statement for all files. |
| C90 | Wspace.v models the file system as a function from absolute paths, the search upwards, SplitFilePath, FindRepoBuildFiles and InterpretLabelForWorkspaceLocation. PropWspace.v: `nearest` on lists of path parts; by induction on the depth of the directory. |
| C91 | RuleCmd.v models the commands on a rule (a record of the call's parts) over the tree API of C33-C40; tables are parameters. PropRuleCmd.v: what print shows after each command; values of list attributes under every configuration. |
| C92 | copyAttributeBetweenRules over the models of the printer and parser. PropCopy.v: the printed expression is read back (from the proof of C30), and set. |
| C93 | RuleComment.v models the comment commands, with the first matching string changed in place. PropRuleComment.v: the string found afterwards is the changed one. |
| C94 | UnusedDeps.v models unused_deps: the manifest reader, the parameter files, the set of unused labels and the printed commands; zip archives, protocol buffers and the build tool are parameters, the order of map iteration too. PropUnused.v: line breaking by induction on the lines of a value, the set exactly, and the commands exactly. |
| C95 | MoveCmd.v models the commands add and move on top of EditList.v and EditResolve.v; the specification is the value of the attribute in a configuration (C39). PropMove.v: an invariant over the values of the command, for the source, the target and the variables. |
| C96 | CallLints.v models the lints of warn_bazel.go (constant-glob, native-build with its fix, native-package, duplicated-name, positional-args, build-args-kwargs, print). PropCallLints.v: the findings of a walk are the concatenation, over all places of the tree in order, of what is asked for at each node (C28); duplicates by an invariant of the map of names. |
| C97 | Docstring.v models warn_docstring.go (five lints, the regular expression as a scanner, map order as a parameter). PropDocstring.v specifies the lines, sections and described arguments of a docstring by relations on positions, proves the regular expression's scanner equal to a description of the matched lines, the loop by an invariant over the lines read, and the findings by induction over the functions of the file. |
| C98 | StmtLints.v models warn_naming.go, warn_visibility.go, warn_deprecated.go, overly-nested-depset and list-append (Unicode case functions and the file reader as parameters). PropStmtLints.v: bound identifiers, statements with their loops, first occurrences and deprecated uses are specified by relations; findings by induction over the statements or by C28. |
| C99 | ApiLints.v models the remaining lints of warn_bazel_api.go that do not need types, with the environment of NotLoaded.v. PropApiLints.v: what is found in a node under its ancestors is specified by relations (free names, calls, first keyword argument, implementations); the order by C28; the fix by walked (every node under its new ancestors). |
| C100 | Types.v models DetectTypes as a fold over the visited nodes in postorder. PropTypes.v: the typing rules are an inductive relation on places; the fold is related to it through the sorted list of places (every place below, and every assignment before, is final when read); uniqueness by induction along that order. |
| C101 | The lints of Types.v against relations over the places and the types of C100 (PropTypeLints.v), for every assignment of types that satisfies the rules. Fixes are not modelled. |
| C102 | NoEffect.v models the lint; PropNoEffect.v specifies the statements without an effect of one block by position (those), and of a statement by the blocks in it (without_effect). |
| C103 | UnusedVar.v models the lint (maps as lists: the order of findings is not specified); PropUnusedVar.v specifies use (uses, with hides), definition, excuse and scope as relations, and proves membership in the findings by induction on the height. |
| C104 | DictCmd.v models the five commands on the rule model of C91; PropDict.v specifies them by key (entry_is, last_for, first_for), by induction on the arguments, and lists in every configuration (value, same_labels) as C95. |
| C105 | Skylark.v models the regular expression, the replacement with the positions of the old text, and the two lints; PropSkylark.v specifies the word, what may be an URL and the renewed text; by induction on texts, comments and the walk of C28. |
| C106 | SelectCmd.v models set_select on the rule model of C91; PropSelectCmd.v specifies the keys in order (distinct) and the values of each key; by induction on the arguments from the end, with C38 and the list semantics of C95. |
| C107 | SubstCmd.v models the substitution with the regular expression as a parameter (first match and expansion); PropSubst.v specifies it by splitting the text, and the attribute by C37's relation on lists. |
| C108 | Expand.v models the file system as a tree and filepath.Walk with the function of utils.go; PropExpand.v specifies paths outside of .git (leads_outside) and names (starlark_name) without filepath.Ext; by induction on trees. |
| C109 | Expand.v models the loop with its stack (with fuel); PropExpand.v proves that as many steps as there are directories are enough, by induction on them. |

## The parser tables

`LRTables.v`, `LRCert.v` and `LRItems.v` are generated from `build/parse.y.go` and `build/parse.y` by
`tools/lrtables.py`, `tools/lrcert.py` and `tools/lritems.py`. Only `LRTables.v` is part of the model (it is a
transcription of the arrays `yyExca`, `yyAct`, `yyPact`, `yyPgo`, `yyR1`, `yyR2`, `yyChk`, `yyDef`, `yyTok*`).
The other two are certificates: they are checked by the theorems that use them (`vm_compute` on a
boolean check that is proved sound), and a wrong certificate makes the build fail.

## What is modelled and what is not

Modelled: build/quote.go, build/utils.go (parts), build/lex.go (lexer, comment assignment), build/parse.y and the
tables and driver in build/parse.y.go, build/syntax.go (tree and spans), build/walk.go, build/rewrite.go, build/rule.go,
labels/, tables/ (merging), edit/edit.go (attribute lists, selects, loads, finding and deleting rules), edit/buildozer.go
(command parsing, grouping and execution order), edit/bzlmod, build/print.go (whole; the model was compared with the
project's own golden files, tools/golden.py: all 118 pairs of input and file type agree), warn/warn.go, warn/warn_control_flow.go (unreachable
statements, missing return, uninitialized variables, unused loads), unused_deps (all but running the build tool), wspace/workspace.go and edit/edit.go InterpretLabelForWorkspaceLocation (Unix paths, no symbolic links), edit/buildozer.go (add, move, set, set_if_absent, remove, remove_if_equal, rename, replace, copy, copy_no_overwrite, print, comment, print_comment, remove_comment on one rule), edit/fix.go (all fixes except the two that sort lists, and the loop that applies them), warn/warn_cosmetic.go (package-on-top, unsorted-dict-items), warn/warn_macro.go, warn/warn_bazel.go, warn/warn_docstring.go, warn/warn_naming.go, warn/warn_visibility.go, warn/warn_deprecated.go, warn/warn_bazel_api.go (ctx-actions, output-group, keyword-positional-params, attr-cfg, attr-non-empty, attr-single-file, not loaded functions and symbols with bzlenv's declared names), buildifier/ (drivers, modes, utils), buildifier/config (validation of the options).

Not modelled: JSON/proto
conversions (build_proto, api_proto, convertast), unused_deps, differ, generated flag parsing, the file system
beyond reads and writes of whole files, the text of error messages, memory use and running time other than the step bounds above.
