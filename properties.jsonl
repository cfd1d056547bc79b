{"id": "C01", "title": "String quoting round trip", "statement": "Quoting any byte string (single- or triple-quoted form) and unquoting the result gives back exactly the same bytes, the same triple flag and no error.", "quantifier": "every byte string, both quote styles", "why_tests_cant": "the escape/quote interplay depends on arbitrarily long context (runs of quotes, digits after octal escapes); tests sample strings", "anchors": ["build/quote.go: quote, Unquote"]}
{"id": "C02", "title": "Quoted literals are self-delimiting", "statement": "When a freshly quoted string is followed by any text that does not begin with a double quote, the lexer's string scanner consumes exactly the literal: it neither stops inside it nor runs past it.", "quantifier": "every byte string, both styles, every following text", "why_tests_cant": "a single missed escape swallows the rest of the file; only induction over all strings settles it", "anchors": ["build/quote.go: quote", "build/lex.go: Lex (string case)"]}
{"id": "C03", "title": "Printing a string literal never changes its value", "statement": "Whatever token hint a string node carries, provided the hint is one the lexer can produce or is not a valid quoting of the value, the text the formatter prints for the node unquotes to the node's value with the same triple flag.", "quantifier": "every value, triple flag and token hint (raw, single quoted, double quoted, triple)", "why_tests_cant": "the printer has five branches that re-quote or rewrite tokens; values are unbounded", "anchors": ["build/print.go: (*printer).expr StringExpr case", "build/quote.go: Unquote, IsCorrectEscaping, quote"]}
{"id": "C04", "title": "Escape decoding follows the documented escape grammar", "statement": "Unquote succeeds on a non-raw literal exactly when its body is a sequence of plain bytes and documented escapes, and returns the concatenation of what each denotes.", "quantifier": "every byte string", "why_tests_cant": "unbounded strings with interacting escapes", "anchors": ["build/quote.go: Unquote"]}
{"id": "C05", "title": "Formatting a string literal never panics", "statement": "Checking the escapes of any literal the lexer accepts terminates without a run-time fault.", "quantifier": "every string literal token, including non-ASCII runes after a backslash", "why_tests_cant": "table lookups indexed by runes fail only on rare inputs", "anchors": ["build/quote.go: IsCorrectEscaping, escapable"]}
{"id": "C06", "title": "Label parse/format round trip", "statement": "Parsing the formatted form of a well-formed label yields the same repository, package and target.", "quantifier": "every label with a target, a repository without '/' or leading '@', and a package without ':'", "why_tests_cant": "three components with several abbreviation rules interact", "anchors": ["labels/labels.go: Parse, Format"]}
{"id": "C07", "title": "Shortening a label preserves what it refers to", "statement": "Shorten(input,pkg) parsed relative to pkg is the same label as input parsed relative to pkg, and shortening is idempotent.", "quantifier": "every input string and package", "why_tests_cant": "string-valued inputs; abbreviations depend on equality of substrings", "anchors": ["labels/labels.go: Shorten, FormatRelative, ParseRelative"]}
{"id": "C08", "title": "Label equality is an equivalence insensitive to spelling", "statement": "Equal is reflexive, symmetric and transitive for a fixed package, and identifies the relative, colon and absolute spellings of the same target while distinguishing different targets.", "quantifier": "every triple of strings and every package", "why_tests_cant": "relation over all strings", "anchors": ["labels/labels.go: Equal, ParseRelative"]}
{"id": "C09", "title": "String list order is a strict total order", "statement": "The comparison used to sort string lists is irreflexive, transitive and total on distinct positions: phase (plain, ':', '//', '@'), then dotted components, then value, then original index; so the sorted order is unique.", "quantifier": "every pair/triple of string list entries", "why_tests_cant": "comparison functions that are not orders misbehave only for particular triples", "anchors": ["build/rewrite.go: makeSortKey, byStringExpr.Less"]}
{"id": "C10", "title": "Sorting a list of strings loses and invents nothing", "statement": "Sorting string lists keeps exactly the set of string values, keeps every non-string element at the same relative place, never moves a string across a non-string or across a comment boundary, and produces chunks in sorted order without duplicates.", "quantifier": "every list of expressions", "why_tests_cant": "lists of any length with arbitrary duplicate and comment patterns", "anchors": ["build/rewrite.go: sortStringExprs, uniq, isUniq, SortStringList"]}
{"id": "C11", "title": "Sorting a string list is idempotent", "statement": "Running the list sorter on its own output changes nothing.", "quantifier": "every list of expressions", "why_tests_cant": "needs all interleavings of duplicates and comments", "anchors": ["build/rewrite.go: sortStringExprs"]}
{"id": "C12", "title": "Deduplication keeps first occurrences", "statement": "Deduplicating a list keeps exactly the first occurrence of every string value and all non-strings, in order.", "quantifier": "every list of expressions", "why_tests_cant": "unbounded lists", "anchors": ["build/rewrite.go: deduplicateStringExprs"]}
{"id": "C13", "title": "Deduplication preserves whole-line comments", "statement": "Whole-line comments attached to removed duplicates survive on a remaining element.", "quantifier": "every list of expressions with comments", "why_tests_cant": "depends on positions of comments relative to duplicates", "anchors": ["build/rewrite.go: deduplicateStringExprs"]}
{"id": "C14", "title": "Call argument sorting is a priority sort of the named tail", "statement": "Sorting call arguments leaves everything up to the last positional argument untouched, permutes the named tail, orders it by (priority, name, original position), and is idempotent.", "quantifier": "every call and priority table", "why_tests_cant": "all argument lists and all tables", "anchors": ["build/rewrite.go: sortCallArgs, namedArgs.Less, ruleNamePriority"]}
{"id": "C15", "title": "Argument reordering is a stable partition", "statement": "Reordering arguments yields positional, named, *args, **kwargs in that order; within each class the original order is kept; nothing is lost.", "quantifier": "every argument list", "why_tests_cant": "all lists", "anchors": ["build/rewrite.go: reorderArguments, argumentType"]}
{"id": "C16", "title": "Loads move to the top without other reordering", "statement": "Moving loads to the top yields: the untouched leading docstring/comments/loads, then the misplaced loads in order, then all other statements in order; WORKSPACE files and files with the disabling comment are untouched.", "quantifier": "every statement list", "why_tests_cant": "index arithmetic over arbitrary interleavings", "anchors": ["build/rewrite.go: moveLoadOnTop"]}
{"id": "C17", "title": "Merging loads of one module preserves bindings", "statement": "After merging, the multiset of (module, exported name, local name) bindings is unchanged, no two enabled load statements share a module, and other statements keep their order.", "quantifier": "every statement list", "why_tests_cant": "all interleavings of modules", "anchors": ["build/rewrite.go: compressSameOriginLoads"]}
{"id": "C18", "title": "Merging loads preserves comments", "statement": "Comments attached to a load statement survive when it is merged.", "quantifier": "every statement list", "why_tests_cant": "depends on comment placement", "anchors": ["build/rewrite.go: compressSameOriginLoads"]}
{"id": "C19", "title": "Load statement order is well defined", "statement": "The order used to sort load statements is a strict weak order, so that the sorted result does not depend on the initial order.", "quantifier": "every pair/triple of load labels", "why_tests_cant": "only specific mixed-case triples fail", "anchors": ["build/rewrite.go: comparePaths, compareLoadLabels, sortLoadStatements"]}
{"id": "C20", "title": "Sorting load statements permutes within chunks only", "statement": "Each maximal run of load statements (ignoring removed statements) is permuted in place; all other statements stay at their index.", "quantifier": "every statement list", "why_tests_cant": "all interleavings", "anchors": ["build/rewrite.go: sortLoadStatements"]}
{"id": "C21", "title": "Sorting load arguments keeps the bindings", "statement": "Sorting the arguments of a load keeps one binding for every local name that was bound, invents none, puts unrenamed symbols first and orders by local name.", "quantifier": "every load statement", "why_tests_cant": "unbounded lists; duplicates", "anchors": ["build/rewrite.go: SortLoadArgs, loadArgs"]}
{"id": "C22", "title": "Octal rewriting preserves numeric value", "statement": "Rewriting 0NNN to 0oNNN does not change the value of a numeric literal and does not touch other literals.", "quantifier": "every numeric literal token", "why_tests_cant": "all tokens", "anchors": ["build/rewrite.go: editOctals"]}
{"id": "C23", "title": "Float rewriting preserves numeric value", "statement": "Normalising floats keeps the literal valid and its value unchanged.", "quantifier": "every float literal token", "why_tests_cant": "all tokens", "anchors": ["build/rewrite.go: editFloats"]}
{"id": "C24", "title": "Docstring reindentation only changes leading and trailing blanks", "statement": "Re-indenting a docstring keeps the first line, keeps the number of lines, shifts each line by at most the indentation difference, removes only spaces, and is idempotent at a fixed indentation.", "quantifier": "every docstring and pair of indentations", "why_tests_cant": "all strings", "anchors": ["build/rewrite.go: formatString, formatDocstrings"]}
{"id": "C25", "title": "Removing parentheses does not change the tree's meaning", "statement": "removeParens only deletes parenthesis nodes around atoms without comments: erasing all parenthesis nodes from the input and from the output gives the same tree.", "quantifier": "every syntax tree", "why_tests_cant": "recursive trees", "anchors": ["build/rewrite.go: removeParens", "build/walk.go: Edit"]}
{"id": "C26", "title": "Label shortening in BUILD files preserves the label", "statement": "The label rewrite changes '//p/x:x' to '//p/x' and '@r//:r' to '@r' only, so that the rewritten string parses to the same label.", "quantifier": "every string", "why_tests_cant": "regular-expression based rewrite over all strings", "anchors": ["build/rewrite.go: fixLabels (shortenLabel)"]}
{"id": "C27", "title": "leave-alone comments are honoured", "statement": "A call marked (or nested in a node marked) 'buildifier: leave-alone' keeps its arguments through argument sorting, label rewriting and list sorting of that call.", "quantifier": "every tree and rewriter configuration", "why_tests_cant": "all nestings", "anchors": ["build/rewrite.go: leaveAlone, sortCallArgs, fixLabels, sortStringLists"]}
{"id": "C28", "title": "The walker visits every node exactly once in preorder with its ancestors", "statement": "Walk calls the callback on each reachable node exactly once, parents before children, children left to right, with the stack equal to the path from the root; StopTraversal prunes exactly the subtree.", "quantifier": "every tree and callback", "why_tests_cant": "recursive trees", "anchors": ["build/walk.go: Walk, walk1, WalkOnce, WalkInterruptable"]}
{"id": "C29", "title": "Rewrites run only in their scope", "statement": "For each file type and configuration, exactly the documented rewrites run in the documented order; an explicitly empty rewrite set runs none; a disabled rewrite never runs by default.", "quantifier": "every file type, rewrite set and disable list", "why_tests_cant": "configuration space", "anchors": ["build/rewrite.go: Rewriter.Rewrite, rewrites"]}
{"id": "C30", "title": "Printed files parse back to the same code", "statement": "Printing a parsed file (build.FormatWithoutRewriting) yields text that parses again, to the same statements up to parentheses, the spelling of string literals, comments and positions.", "quantifier": "every source text that parses; every tree that some tokens spell", "why_tests_cant": "trees are unbounded and precedence, parentheses, line breaks, indentation and pending comments interact everywhere", "anchors": ["build/print.go: FormatWithoutRewriting, (*printer).file, statements, expr, seq, addParen, opPrec, newline, breakline", "build/parse.y: file, test, primary_expr", "build/lex.go: assignComments"]}
{"id": "C31", "title": "Comments are attached exactly once", "statement": "Comment assignment attaches every line and suffix comment to exactly one node or to the file, preserving their source order; none is dropped or duplicated.", "quantifier": "every comment list and node order", "why_tests_cant": "all interleavings of comments and nodes", "anchors": ["build/lex.go: assignComments, assignSuffixComments, assignLineComments"]}
{"id": "C32", "title": "The lexer is lossless and balanced", "statement": "Tokens and skipped blanks partition the input; indent and unindent tokens are balanced; lexing always terminates.", "quantifier": "every input", "why_tests_cant": "all byte strings", "anchors": ["build/lex.go: Lex, readRune, newInput"]}
{"id": "C33", "title": "Attribute access obeys get/set laws", "statement": "After setting an attribute it reads back; other attributes are unchanged; setting an existing attribute keeps its position; deleting removes the first definition and returns its value; deleting an absent attribute changes nothing.", "quantifier": "every rule, key and value", "why_tests_cant": "all argument lists, including duplicates and non-named arguments", "anchors": ["build/rule.go: Attr, AttrDefn, SetAttr, DelAttr, AttrKeys"]}
{"id": "C34", "title": "Rule deletion removes exactly the matching rules", "statement": "Deleting rules by kind and name removes exactly the matching top-level calls, keeps the others in order and returns the number removed.", "quantifier": "every file, kind and name", "why_tests_cant": "all files", "anchors": ["build/rule.go: DelRules", "edit/edit.go: DeleteRuleByName, DeleteRuleByKind"]}
{"id": "C35", "title": "Adding a list value is idempotent and conservative", "statement": "Adding a label to a list attribute makes it present, adds it at most once, removes no other element from plain lists, and adding it again changes nothing.", "quantifier": "every attribute expression (lists, concatenations, selects), label and package", "why_tests_cant": "recursive expressions", "anchors": ["edit/edit.go: AddValueToList, sortedInsert, ListFind"]}
{"id": "C36", "title": "Removing a list value removes all of its spellings and nothing else", "statement": "After removal no spelling of the label remains in any list or select branch of the attribute and all other elements keep their order; removal reports whether something was removed.", "quantifier": "every attribute expression, label and package", "why_tests_cant": "recursive expressions", "anchors": ["edit/edit.go: ListDelete, RemoveFromList, SelectDelete"]}
{"id": "C37", "title": "Replacing a list value touches only its spellings", "statement": "Replace rewrites exactly the elements equal to the old label, keeps their comments and positions, and reports whether anything changed.", "quantifier": "every attribute expression", "why_tests_cant": "recursive expressions", "anchors": ["edit/edit.go: ListReplace"]}
{"id": "C38", "title": "Dictionary attribute operations behave like a map", "statement": "Set then get returns the value; other keys keep their values; delete removes exactly the named key.", "quantifier": "every dictionary expression, key, value", "why_tests_cant": "all dictionaries including non-string keys", "anchors": ["edit/edit.go: DictionarySet, DictionaryGet, DictionaryDelete"]}
{"id": "C39", "title": "Resolving an attribute preserves its value in every configuration", "statement": "Extracting common select elements and simplifying does not change the set of labels the attribute denotes under any choice of select branch.", "quantifier": "every attribute expression and every configuration", "why_tests_cant": "exponentially many configurations", "anchors": ["edit/edit.go: ResolveAttr, SelectListsIntersection, ComputeIntersection, RemoveEmptySelectsAndConcatLists"]}
{"id": "C40", "title": "Moving attribute values loses nothing", "statement": "Moving all values from one list attribute to another deletes the old attribute and every moved value is present in the new one.", "quantifier": "every rule and pair of attributes", "why_tests_cant": "all lists", "anchors": ["edit/edit.go: MoveAllListAttributeValues, RenameAttribute"]}
{"id": "C41", "title": "Inserting a load makes the symbol available once", "statement": "After inserting a load, every requested symbol is bound from the module, existing bindings are unchanged, no symbol is loaded twice from that module, and the load is placed after leading comments, docstring and workspace().", "quantifier": "every statement list, module and symbol list", "why_tests_cant": "all files", "anchors": ["edit/edit.go: InsertLoad, appendLoad, AppendToLoad, NewLoad"]}
{"id": "C42", "title": "Replacing a load removes the old bindings", "statement": "After replace_load, no other load statement binds any of the replaced symbols, and all other bindings survive.", "quantifier": "every statement list and symbol list", "why_tests_cant": "in-place slice deletion inside a range loop fails only for particular adjacency patterns", "anchors": ["edit/edit.go: ReplaceLoad"]}
{"id": "C43", "title": "New rules are inserted where asked", "statement": "new inserts exactly one rule, at the requested position relative to an existing rule, or after the last rule of the same kind, or at the end before trailing comments; an existing name is refused; all other statements keep their order.", "quantifier": "every file and command", "why_tests_cant": "all files", "anchors": ["edit/buildozer.go: cmdNew, findInsertionIndex", "edit/edit.go: InsertAfter, InsertAfterLastOfSameKind, InsertAtEnd, IndexOfLast"]}
{"id": "C44", "title": "The package declaration is created once and removed when empty", "statement": "PackageDeclaration returns an existing declaration or inserts exactly one after the leading comments, docstring and loads; cleaning removes exactly the empty package() calls.", "quantifier": "every file", "why_tests_cant": "all files", "anchors": ["edit/edit.go: PackageDeclaration, RemoveEmptyPackage"]}
{"id": "C45", "title": "Buildozer writes a file only when asked and successful", "statement": "A file is written only if some command produced a change, no command failed (without keep-going), formatting succeeded and the bytes differ; print-only commands never write.", "quantifier": "every command list and file content", "why_tests_cant": "all command sequences and failure points", "anchors": ["edit/buildozer.go: rewrite"]}
{"id": "C46", "title": "Buildozer's result does not depend on scheduling", "statement": "For every interleaving of the workers every file is processed exactly once, the run terminates without deadlock, and the exit code and the multiset of outputs are the same.", "quantifier": "every schedule, worker count and file set", "why_tests_cant": "interleavings", "anchors": ["edit/buildozer.go: Buildozer"]}
{"id": "C47", "title": "Buildifier processes files in order whatever the read schedule", "statement": "For every interleaving of the reader goroutines the main loop receives the content of file i at step i, never reports a phase error and never deadlocks.", "quantifier": "every schedule, file list and worker count", "why_tests_cant": "interleavings", "anchors": ["buildifier/buildifier.go: processFiles"]}
{"id": "C48", "title": "Buildifier exit codes and modes", "statement": "check mode never writes and exits 4 iff the formatted text differs or warnings remain; fix mode writes iff it differs; a syntax error exits 1 and writes nothing; diagnostics report success iff every file is formatted and has no warnings.", "quantifier": "every mode, input and formatter result", "why_tests_cant": "all combinations", "anchors": ["buildifier/buildifier.go: processFile, processFiles", "buildifier/utils/diagnostics.go: NewDiagnostics"]}
{"id": "C49", "title": "Suggested replacements reproduce the fix", "statement": "Applying the suggested replacement (start, end, content) to the old text yields exactly the new text, with start <= end within the old text.", "quantifier": "every pair of byte strings", "why_tests_cant": "overlapping common prefix and suffix", "anchors": ["warn/warn.go: calculateDifference"]}
{"id": "C50", "title": "Suggest mode rolls back its trial edits", "statement": "Applying a list of replacements and rolling back restores every cell, even if several replacements touch the same cell.", "quantifier": "every store and replacement list", "why_tests_cant": "aliasing between replacements", "anchors": ["warn/warn.go: formatWithFix"]}
{"id": "C51", "title": "Command lines split and unescape faithfully", "statement": "Splitting a command built from escaped arguments returns the arguments; separators never appear unescaped in arguments; pipes escaped in command files are preserved.", "quantifier": "every argument list", "why_tests_cant": "all strings", "anchors": ["edit/buildozer.go: SplitOnSpaces, saveEscapedPipes, replaceSavedPipes"]}
{"id": "C52", "title": "Tables merge pointwise", "statement": "Merging user tables overrides exactly the given keys and keeps the rest; overriding replaces all of them.", "quantifier": "every table pair and key", "why_tests_cant": "all maps", "anchors": ["tables/tables.go: MergeTables, OverrideTables"]}
{"id": "C53", "title": "use_repo edits add once and remove exactly", "statement": "Adding repos to use_repo calls adds each missing repo exactly once to the last call and nothing else; removing removes exactly the named repos; the extension argument is never removed.", "quantifier": "every list of use_repo calls and repos", "why_tests_cant": "all lists", "anchors": ["edit/bzlmod/bzlmod.go: AddRepoUsages, RemoveRepoUsages"]}
{"id": "C54", "title": "Extension labels are recognised", "statement": "An argument that is an absolute label of an extension file ('//pkg:ext.bzl' or '@repo//...') is recognised as an extension label by use_repo_add/use_repo_remove.", "quantifier": "every argument string", "why_tests_cant": "string predicate", "anchors": ["edit/buildozer.go: isExtensionLabel, cmdImplUseRepo"]}
{"id": "C55", "title": "Unreachable-code and missing-return lint is sound", "statement": "A statement reported unreachable is never executed by any run of the function body; a function reported as always returning a value cannot fall off its end.", "quantifier": "every statement tree and execution", "why_tests_cant": "unbounded executions", "anchors": ["warn/warn_control_flow.go"]}
{"id": "C56", "title": "File type detection", "statement": "File type detection is case-insensitive, ignores a .oss suffix and classifies BUILD, WORKSPACE, MODULE, .bzl names as documented.", "quantifier": "every file name", "why_tests_cant": "all strings", "anchors": ["build/lex.go: getFileType"]}
{"id": "C57", "title": "Module include traversal terminates and visits each file once", "statement": "Collecting apparent names over include() edges terminates on cyclic includes, reads each file at most once and reads every reachable file.", "quantifier": "every finite include graph", "why_tests_cant": "cycles of any length", "anchors": ["edit/bzlmod/bzlmod.go: collectApparentNames"]}
{"id": "C58", "title": "Layout rewrites change layout only", "statement": "The rewrite that moves line breaks in list sums and the one that collapses empty calls change only the flags that control line breaks: the tree, its tokens, positions and comments stay the same.", "quantifier": "every file", "why_tests_cant": "sums of any length nested anywhere", "anchors": ["build/rewrite.go: fixMultilinePlus, collapseEmpty"]}
{"id": "C59", "title": "Lint modes", "statement": "In warn mode buildifier never changes the file and reports exactly the findings that are not disabled, sorted by line; in suggest mode it restores the file and reports the same findings with replacements; in fix mode it leaves no automatically fixable finding; an unknown warning name is an error, and only that.", "quantifier": "every file, every list of enabled warnings, every set of findings produced by the checks", "why_tests_cant": "every combination of warnings and files", "anchors": ["warn/warn.go: FileWarnings, FixWarnings, runWarningsFunction", "buildifier/utils/utils.go: Lint"]}
{"id": "C60", "title": "Disabling comments", "statement": "A finding is suppressed exactly when a statement or expression covering its line carries a comment that disables its category.", "quantifier": "every file, every finding, every comment", "why_tests_cant": "nesting of any depth, comments anywhere", "anchors": ["warn/warn.go: DisabledWarning, hasDisablingComment, hasDisablingCommentForNode"]}
{"id": "C61", "title": "Commands from command files keep their order", "statement": "The commands of command files reach each BUILD file and target in the order in which they are written.", "quantifier": "every list of command lines", "why_tests_cant": "files of any length with any interleaving of targets", "anchors": ["edit/buildozer.go: appendCommands, appendCommandsFromReader"]}
{"id": "C62", "title": "The rules of a file", "statement": "Listing the rules of a file gives exactly the calls that are not inside another call, in source order, restricted to the requested kind; looking a rule up by name or by line succeeds exactly when one rule and only one qualifies.", "quantifier": "every file, every kind, every name, every line", "why_tests_cant": "calls nested at any depth inside any construct", "anchors": ["build/rule.go: File.Rules, File.RuleNamed, File.RuleAt"]}
{"id": "C63", "title": "Sorting marks", "statement": "Exactly the lists asked for are sorted: sortable attributes of calls in BUILD-like files and values marked 'keep sorted'. A list whose first element is marked 'do not sort', an attribute so marked, or a list with comment lines and no 'keep sorted' only loses duplicates; a use_repo call keeps its order if the call, its proxy or its first repository is marked; everything else stays as it is.", "quantifier": "every file, every set of tables and allowed names, every placement of comments", "why_tests_cant": "marks may sit on any of many nodes and lists nest through sums and selects to any depth", "anchors": ["build/rewrite.go: sortStringLists, SortStringList, sortUseRepoPositionals, deduplicateStringList, findAndModifyStrings, hasComments"]}
{"id": "C64", "title": "The uninitialized-variable lint reports exactly the variables that may be read before they are set", "statement": "In a function, an occurrence of a local variable is reported if and only if some run of the body (conditions and loops taken in any way) reads it there before it has been given a value.", "quantifier": "every function in every file, every run through its statements", "why_tests_cant": "runs and nestings of branches, loops, jumps and scopes are unbounded", "anchors": ["warn/warn_control_flow.go: uninitializedVariableWarning, findUninitializedVariables, findUninitializedIdents, extractIdentsFromStmt", "bzlenv/bzlenv.go: CollectLValues", "build/utils.go: GetParamIdent"]}
{"id": "C65", "title": "Parsing ends", "statement": "Parsing any sequence of tokens comes to an end, with a file or a syntax error, after a number of steps linear in the number of tokens.", "quantifier": "every sequence of tokens", "why_tests_cant": "an LR automaton with a cycle of reductions would hang only on particular stacks", "anchors": ["build/parse.y.go: Parse, yylex1", "build/parse.y"]}
{"id": "C66", "title": "A parsed file is what was written", "statement": "If parsing accepts a text then the statements of the file spell exactly its tokens: every token of the source is accounted for by exactly one node of the tree, operators are grouped by precedence and to the left, and nothing is lost, invented or reordered; no input makes the parser panic.", "quantifier": "every source text", "why_tests_cant": "nesting of expressions, statements and blocks is unbounded and every pair of operators interacts", "anchors": ["build/parse.y", "build/parse.y.go: Parse"]}
{"id": "C67", "title": "Everything in the language is parsed, in one way", "statement": "Every sequence of tokens that spells a program according to the grammar is accepted, and the tree is the one spelled: two different trees (apart from positions, comments and layout flags) never have the same tokens.", "quantifier": "every program tree, every sequence of tokens", "why_tests_cant": "conflicts in an LR grammar show up only on particular inputs", "anchors": ["build/parse.y", "build/parse.y.go: Parse"]}
{"id": "C68", "title": "Comments reach the tree", "statement": "Every comment line of the source, whole-line, between statements, inside brackets or at the end of a line, appears in the parsed file exactly once, and comment lines between statements keep their order.", "quantifier": "every source text", "why_tests_cant": "comments can stand anywhere, including at dedented positions after blocks of any depth", "anchors": ["build/parse.y: stmts, suite, comments, extractTrailingComments, extractDedentedComment, getLastBody", "build/lex.go: assignComments"]}
{"id": "C69", "title": "Formatting is idempotent", "statement": "Printing the tree read from printed text yields the same text again.", "quantifier": "every source text that parses", "why_tests_cant": "the layout decisions depend on positions and comments of arbitrary trees", "anchors": ["build/print.go: FormatWithoutRewriting, (*printer).expr"]}
{"id": "C70", "title": "Built trees are printed with the parentheses they need", "statement": "Printing a syntax tree that a tool has built without parentheses gives text that is parsed as the same tree: every operand is still the operand of its operator.", "quantifier": "every tree made of well-formed names, literals and operators in which each part is of a kind that may stand where it stands", "why_tests_cant": "the nestings of operators are unbounded and the printer decides from precedence numbers at each level", "anchors": ["build/print.go: (*printer).expr, opPrec, precLow, precUnary, precSuffix"]}
{"id": "C71", "title": "The unused-load fix removes exactly the bindings nobody needs", "statement": "buildifier's unused-load fix keeps the binding of every loaded name that the file uses, in code or in a type annotation, adds none, and removes every loaded name that is neither used nor marked @unused; other statements and the comments stay.", "quantifier": "every file: any statements, any number of loads in any order, with duplicates and aliases", "why_tests_cant": "names can be used at any depth of any statement, and the duplicate check depends on the whole history of loads before it", "anchors": ["warn/warn_control_flow.go: unusedLoadWarning", "edit/edit.go: UsedSymbols, UsedTypes", "build/utils.go: GetTypes"]}
{"id": "C72", "title": "buildozer fix unusedLoads removes only loads nobody needs", "statement": "buildozer's unusedLoads fix keeps the binding of every loaded name that the file uses, removes those that are not used, keeps the statements that are not loads and the comments of loads it removes, and reports a change if it made one.", "quantifier": "every file and every history of loads in it", "why_tests_cant": "names can be used at any depth of any statement, and the duplicate check depends on all loads before it", "anchors": ["edit/fix.go: cleanUnusedLoads", "edit/edit.go: UsedSymbols"]}
{"id": "C73", "title": "The package-on-top lint moves package() first", "statement": "The package-on-top lint reports exactly the package() calls that stand after a statement which should follow them (up to the first assignment); its fix moves exactly the reported declarations, in order, before that statement, keeps all statements and the order of the others, and leaves nothing to report; a file with nothing to report is unchanged.", "quantifier": "every BUILD or bzl file: any statements in any order, any number of package() calls, any set of findings that are not disabled", "why_tests_cant": "the replacements are computed as cell indexes with a running offset; any pattern of statements before, between and after the declarations must work", "anchors": ["warn/warn_cosmetic.go: packageOnTopWarning", "warn/warn.go: FixWarnings"]}
{"id": "C74", "title": "buildozer fix movePackageToTop only moves package()", "statement": "movePackageToTop moves the first package() before the first statement that is not a comment, string, assignment or load, keeps all statements and the order of the others, and reports a change exactly if it made one; the moved declaration does not get before anything that it needs.", "quantifier": "every file", "why_tests_cant": "holds for every arrangement of the statements", "anchors": ["edit/fix.go: movePackageDeclarationToTheTop"]}
{"id": "C75", "title": "Removing default visibility and testonly keeps their meaning", "statement": "removeVisibility and removeTestOnly delete an attribute only if the rule has the same visibility or testonly value without it, given the package() of the file, and change nothing else; a visibility that lists the default in any order is removed.", "quantifier": "every rule, every file with or without a package() declaration, every package name", "why_tests_cant": "the default depends on the file's first package(), the kind and the package; lists may be in any order", "anchors": ["edit/fix.go: removeVisibility, removeTestOnly"]}
{"id": "C76", "title": "Splitting options keeps the options", "statement": "splitOptions changes only the lists of copts and linkopts; as a shell reads them, the options are the same as before and in the same order, and the comments remain; afterwards a string is one option, unless it is quoted or names a location.", "quantifier": "every rule and every list of strings and other expressions", "why_tests_cant": "strings may contain any blanks, quotes, backslashes and UTF-8 text", "anchors": ["edit/fix.go: splitOptionsWithSpaces"]}
{"id": "C77", "title": "Shortening labels keeps the labels", "statement": "shortenLabels changes only strings in the lists of label attributes, each to another spelling of the same label, and leaves every such string in its shortest form; it reports no change only if there was none.", "quantifier": "every rule, kind, package name and set of label attributes", "why_tests_cant": "labels have many spellings, and lists can be nested in sums at any depth", "anchors": ["edit/fix.go: shortenLabels", "edit/types.go: ContainsLabels", "labels/labels.go: Shorten"]}
{"id": "C78", "title": "Explicit labels in genrule commands", "statement": "genruleFixHeuristicLabels changes only words in the strings of cmd that name a label of srcs or tools, each to $(location label); in a command without location words every such word is marked; labels that are already explicit are left alone, so running it again changes nothing.", "quantifier": "every command text and every set of labels", "why_tests_cant": "commands are arbitrary text and the state of the loop depends on all words before", "anchors": ["edit/fix.go: genruleFixHeuristicLabels, explicitHeuristicLabels"]}
{"id": "C79", "title": "Simplifying expressions keeps their value", "statement": "mergeLiteralLists leaves the value of every expression as it was, under any interpretation in which + concatenates lists, leaves no sum of two literal lists, and loses no comment; varref replaces each varref(\"X\") by \"$(X)\" in the same sense.", "quantifier": "every expression, at any depth, and every compositional interpretation", "why_tests_cant": "sums nest to any depth and the walk replaces nodes while it descends", "anchors": ["edit/fix.go: mergeLiteralLists, evaluateListConcatenation, removeVarref", "build/walk.go: Edit"]}
{"id": "C80", "title": "+= for extend and append", "statement": "usePlusEqual turns each statement x.extend(y) into x += y and each x.append(y) into x += [y], with its comments and in place, changes nothing else, reports no change only if there was none, and the result can be parsed.", "quantifier": "every file", "why_tests_cant": "holds for every statement and every form of argument", "anchors": ["edit/fix.go: usePlusEqual"]}
{"id": "C81", "title": "licenses() moves into package()", "statement": "moveLicenses removes the licenses() calls and gives the package() the licenses of the last one with its comments; nothing else changes and no licenses are lost.", "quantifier": "every file, with or without package(), with any number of licenses() calls", "why_tests_cant": "several calls, an attribute that exists already, missing declarations and keyword arguments interact", "anchors": ["edit/fix.go: moveToPackage, moveLicenses"]}
{"id": "C82", "title": "Unnamed macros", "statement": "The lint unnamed-macro reports public functions of a .bzl file that have neither a parameter called name nor **kwargs and that make rules: they call, directly or through aliases and functions of any files of the repository, a rule or a native rule. It reports only those, it reports one if there is one, the call that a message names is a call that makes a rule, and the analysis ends however functions and files refer to each other.", "quantifier": "every .bzl file, every repository, every order of iteration over Go's maps, recursive functions and load cycles included", "why_tests_cant": "call graphs of every shape, across files, with recursion and a cache that is written before the analysis", "anchors": ["warn/warn_macro.go: unnamedMacroWarning, macroAnalyzer.IsMacro, analyzeFile, getFunCalls, acceptsNameArgument"]}
{"id": "C83", "title": "buildifier's options", "statement": "Options are accepted exactly when they make sense together (known input type; a diagnostics format only in mode check; -d only without -mode; a known mode; lint=fix only in mode fix; -path and print_if_changed only with one file; categories either all plain or all with + or -), and then the mode is the one given or the default, the lint mode likewise, and the categories checked are the default ones, all, the listed ones, or the default ones without those with - and with those with + (appended once each, even if they are default ones already).", "quantifier": "every combination of option texts, category list and number of files, every map iteration order", "why_tests_cant": "texts of the options are unbounded and interact", "anchors": ["buildifier/config/validation.go:ValidateInputType", "buildifier/config/validation.go:ValidateFormat", "buildifier/config/validation.go:ValidateModes", "buildifier/config/validation.go:ValidateWarnings", "buildifier/config/config.go:Validate"]}
{"id": "C84", "title": "Order of dictionary items (unsorted-dict-items)", "statement": "The lint reports exactly the items with string-literal keys that stand directly after an item that has to follow them (keys in byte order, then //conditions:default, then keys that start with an underscore), except in dictionaries below or at a comment @unsorted-dict-items. Its fix puts the items of every other dictionary, at any depth, in this order: items without a literal key stay where they are, items with the same key keep their order, no item is lost or added, and nothing else changes. Afterwards nothing is reported; a file with no findings is not changed.", "quantifier": "every file tree of any size and depth, with any comments", "why_tests_cant": "dictionaries nest and the exempting comment may be anywhere above", "anchors": ["warn/warn_cosmetic.go:unsortedDictItemsWarning"]}
{"id": "C85", "title": "cfg of attr definitions (attr-cfg)", "statement": "In a .bzl file the lint reports exactly the calls attr.x(...) whose first cfg argument is the literal \"data\" or \"host\". Its fix removes cfg = \"data\", turns cfg = \"host\" into cfg = \"exec\" and changes nothing else. Linting without fixing leaves the file alone.", "quantifier": "every file tree", "why_tests_cant": "files are unbounded; the damage shows only when the tree is printed after linting", "anchors": ["warn/warn_bazel_api.go:attrConfigurationWarning", "warn/warn_bazel_api.go:getParam"]}
{"id": "C86", "title": "Deprecated parameters of attr definitions (attr-non-empty, attr-single-file)", "statement": "In a .bzl file the fixes change only calls attr.x(...): non_empty = v becomes allow_empty = w with w the opposite of v; single_file = False is removed, and any other single_file becomes allow_single_file, with the value of allow_files, which is removed, if there is one, and with its own value otherwise. The meaning of the definition is kept.", "quantifier": "every file tree, every reading of boolean expressions", "why_tests_cant": "arguments are arbitrary expressions", "anchors": ["warn/warn_bazel_api.go:attrNonEmptyWarning", "warn/warn_bazel_api.go:negateExpression", "warn/warn_bazel_api.go:attrSingleFileWarning"]}
{"id": "C87", "title": "Functions and symbols that must be loaded (native-cc, native-java, ...)", "statement": "The check reports exactly the calls native.g(...) of a listed function g, and the calls g(...) and uses of listed symbols whose name has no meaning at that place (no load, assignment, function, parameter, local or comprehension variable). The fix turns native.g(...) into g(...), makes the file load exactly the reported names from the given module (in its first load of that module, or in a new load below docstring and comments) and changes nothing else; afterwards every such name means the loaded one, all others mean what they meant, and the check reports nothing.", "quantifier": "every file tree, every list of functions and symbols, every module, every map iteration order", "why_tests_cant": "scopes nest without bound; what a name means depends on everything above it", "anchors": ["warn/warn_bazel_api.go:notLoadedUsageCheck", "warn/warn_bazel_api.go:insertLoad", "bzlenv/bzlenv.go:WalkOnceWithEnvironment", "bzlenv/bzlenv.go:CollectLValues"]}
{"id": "C88", "title": "Keyword arguments of builtins are made positional without changing what the call passes", "statement": "The keyword-positional-params fix rewrites a call of a listed builtin (all, any, tuple, list, len, str, repr, bool, int, dir, type, hasattr, getattr, select, also as native.xxx) exactly when some argument at position i is given by the name of parameter i and the argument list is in order (positional, keyword, *args, **kwargs) after dropping those names; exactly these names are dropped and nothing else in the file changes. Every such argument, and nothing else, is reported. Whatever the arguments evaluate to, a call that was legal passes the same values to the same parameters afterwards. Fixing again changes nothing. (False for functions of the user that have the name of a builtin: the name is not looked up.)", "quantifier": "all syntax trees; all calls; all values of the arguments, of *args and of **kwargs; all functions whose first parameters have the listed names", "why_tests_cant": "the conversion must respect the binding rules for every mix of positional, keyword, star arguments and at every depth", "anchors": ["warn/warn_bazel_api.go: keywordPositionalParametersWarning, paramType, functionName, makePositional, signatures"]}
{"id": "C89", "title": "The old ctx interface is rewritten to ctx.actions, and output_group to OutputGroupInfo, with the same arguments", "statement": "In a .bzl file the ctx-actions fix turns every call of ctx.new_file (with at most two arguments), ctx.experimental_new_directory, ctx.file_action, ctx.action, ctx.empty_action, ctx.template_action into the corresponding call of ctx.actions, with arguments swapped or renamed as the new interface wants (new_file(sibling, name) passes the same things to declare_file(name, sibling = ...)), unless the call is itself an argument of another such call; nothing else is changed, and exactly the calls of the old interface are reported. The output-group fix turns every ctx.attr.xxx.output_group into ctx.attr.xxx[OutputGroupInfo] and changes nothing else. (False for calls nested directly in each other, for keyword arguments given in the other order, for *args and **kwargs, where the result does not parse, and for comments at a keyword that goes.)", "quantifier": "all syntax trees of .bzl files; all calls at all depths; all values of the arguments", "why_tests_cant": "replacements are made through pointers into a tree that earlier replacements have already changed: what is kept or lost depends on every combination of nesting", "anchors": ["warn/warn_bazel_api.go: ctxActionsWarning, outputGroupWarning, getParam, makePositional, makeKeyword"]}
{"id": "C90", "title": "A file belongs to the nearest workspace and package above it, and a label names one BUILD file whatever directory it is written in", "statement": "Looking upwards from a directory, the first directory with a workspace file (WORKSPACE, WORKSPACE.bazel, MODULE.bazel, REPO.bazel, .buckconfig or an executable pants) is the workspace; a file's path is its workspace, followed by the nearest package in that workspace (the workspace itself, if there is none), followed by the rest, and nothing is lost or added. A label //package:rule is about the first of BUILD.bazel, BUILD and BUCK that exists in that directory of the workspace (BUILD if there is none), or about the file of that name if there is one; in the current directory a label without // is about the same file, package and rule as the one with the directory spelled out; //a/b means //a/b:b; a label @repository//package:rule is about the build file that the WORKSPACE file gives to that repository, or about none. (False for a workspace in /, for a -root_dir written with ./, for a relative label with a -root_dir, for the package of a file in the root of a workspace, for repositories declared in WORKSPACE.bazel, and for the order of two declarations.)", "quantifier": "all file systems, directories, file names and labels", "why_tests_cant": "the search depends on every directory above and on the spelling of paths, which a test has one of", "anchors": ["wspace/workspace.go: Find, FindWorkspaceRoot, SplitFilePath, FindRepoBuildFiles", "edit/edit.go: InterpretLabelForWorkspaceLocation"]}
{"id": "C91", "title": "The attribute commands of buildozer do what they say, and print shows the result", "statement": "After 'set attr values' the attribute is there with these values (a list, an integer list, a string or a name, as the tables say for the attribute; labels shortened), in the place it had, or at the end, and all other attributes are as before; 'set_if_absent' does the same only if the attribute was not there; 'rename' keeps the value and place and fails if the old attribute is not there or the new one is; 'remove attr' removes the attribute, 'remove *' all attributes but the name; 'remove_if_equal' removes exactly when the value is the given string (as a label) or name; 'remove attr values' leaves, in every configuration, exactly the elements that are not spellings of these values, and removes an attribute that becomes empty; 'replace' replaces every spelling of the old label in a list or the whole string. 'print' shows the name, the kind, the label (which reads back as the package and name), the attributes that exist and the value of each attribute, '(missing)' exactly for those that do not exist. (False for an attribute that is defined twice, an attribute called kind, attributes with the reserved names, and values with spaces: the output is ambiguous.)", "quantifier": "all rules, attribute names, values and tables of attribute types", "why_tests_cant": "what a command does depends on everything else in the rule, and the commands are combined", "anchors": ["edit/buildozer.go: cmdSet, cmdSetIfAbsent, cmdRemove, cmdRemoveIfEqual, cmdRename, cmdReplace, cmdPrint, getAttrValueExpr, getStringExpr, printRecord"]}
{"id": "C92", "title": "Copying an attribute gives the other rule the same value", "statement": "After 'copy attr from' the rule has the attribute with a value that means the same as that of the other rule, whatever the expression is, and nothing else is changed; the command fails exactly if there is no such rule or it has no such attribute; 'copy_no_overwrite' leaves an attribute that is there. (False for values with comments outside of their brackets: those on a line of their own make the command fail, those at the end of a line are lost.)", "quantifier": "all files, rules and attribute values that can be written down", "why_tests_cant": "the value is printed and read again, so this depends on the printer and the parser for every expression", "anchors": ["edit/buildozer.go: copyAttributeBetweenRules, cmdCopy, cmdCopyNoOverwrite", "build/print.go: FormatString"]}
{"id": "C93", "title": "Comments that buildozer writes are the ones it prints, and removing them removes them", "statement": "After 'comment text' print_comment shows the text (lines separated by \\n are joined by spaces); after 'comment attr value text' it shows it for that value, in a list or in a select, and no other value is changed; after remove_comment it shows nothing, for a rule, an attribute or a value. (False for 'comment attr text': the comment goes to the name or value of the attribute, where print_comment does not look before the file is written and read again.)", "quantifier": "all rules, attributes, values and texts", "why_tests_cant": "the commands find their node in lists, sums and selects of any shape", "anchors": ["edit/buildozer.go: cmdComment, cmdPrintComment, cmdRemoveComment, commentsText", "edit/edit.go: listOrSelectFind"]}
{"id": "C94", "title": "unused_deps prints commands exactly for the dependencies that no compilation needed", "statement": "For a target of the main repository, a command is printed for a string in the lists of deps exactly if it names the target of a direct dependency jar such that no jar with that label was explicitly needed; a dependency with a comment about run time is moved, any other is removed after its exports were added. If one target has one label in all jars, nothing that was needed is removed. The label in a jar manifest is found whole wherever its lines are broken and however they end; the direct dependencies are the jars after the flag up to the next option. (False: another header that ends with the key is taken; with two spellings of a label a needed dependency is removed; the flag at the end of a file crashes the tool; nothing is printed for targets of other repositories, and relative labels there are taken for those of the main one.)", "quantifier": "all files, jars, compiler reports, targets, and orders in which maps are ranged over", "why_tests_cant": "the set depends on the text of every manifest, on the order of map iteration and on label spellings", "anchors": ["unused_deps/unused_deps.go: directDepParams, unusedDeps, getDepsExpr, printCommands, main", "unused_deps/jar_manifest.go: manifestIndexNewline, jarManifestValue"]}
{"id": "C95", "title": "buildozer add and move: what a list contains afterwards", "statement": "`add attr values` leaves the list attribute with exactly the elements it had and the new ones, up to order, repetition and spelling of labels, in every configuration of its selects and also when the attribute's value is a variable; `move old new values` takes exactly the elements that spell the values out of every list and branch of old, adds each of them to new, changes no other attribute and reports a change exactly if something moved. Not guaranteed (counterexample proved): a value moved out of a select branch keeps its condition - it becomes unconditional.", "quantifier": "all settings, attributes, values, argument lists, variables, configurations", "why_tests_cant": "the attribute's expression is an arbitrary sum of lists, selects and variables and the values are interpreted as labels", "anchors": ["edit/buildozer.go cmdAdd, cmdMove", "edit/edit.go AddValueToListAttribute, ListAttributeDelete, ResolveAttr"]}
{"id": "C96", "title": "Lints about calls report exactly the offending calls", "statement": "print, native-package, native-build, build-args-kwargs and constant-glob report, in the order of the text and each exactly once, exactly the nodes of the file that have the fault, and only in the file types they are for; constant-glob reports the first constant pattern of each glob; duplicated-name reports every rule whose explicit name an earlier rule has, with the line of the first one; positional-args reports the first unkeyed argument of each rule statement or comprehension over a rule. The fix of native-build replaces exactly native.x by x and keeps the meaning. Not guaranteed (counterexample proved): the fix keeps the comments of native.x.", "quantifier": "all files (trees), file types, nesting depths", "why_tests_cant": "the offending calls can be anywhere in an arbitrarily nested file and the number of findings must be exact", "anchors": ["warn/warn_bazel.go constantGlobWarning, nativeInBuildFilesWarning, nativePackageWarning, duplicatedNameWarning, positionalArgumentsWarning, argsKwargsInBuildFilesWarning, printWarning", "warn/warn.go ruleWarningWrapper"]}
{"id": "C97", "title": "The docstring lints ask for exactly what is missing", "statement": "module-docstring reports a .bzl or default file iff its first statement that is no comment is not a string. function-docstring reports exactly the functions at the top level that need a docstring (public, at the margin, at least five statements) and have none. For every docstring of any function, nested or not: function-docstring-header reports it iff its first non-empty line is followed by a non-empty line; function-docstring-return reports it iff the function needs a docstring, returns a value outside inner functions and the docstring has no line Returns: at the indentation of its quotes; function-docstring-args reports the parameters (with their stars) that no line of a section Args: describes in one finding, every described name that is no parameter exactly once, at the line where it is described last, with the parameter that was meant, and a line Arguments:. A docstring without a position makes the lints panic. Not guaranteed (counterexamples proved): that the reported column, or the line if the docstring is written with escapes, is where the name is.", "quantifier": "all files, docstrings (all byte strings), parameter lists, nesting depths, all orders of map iteration", "why_tests_cant": "the sections of a docstring are found by a loop with state over arbitrary text, and the map order of the findings differs from run to run", "anchors": ["warn/warn_docstring.go moduleDocstringWarning, functionDocstringWarning, functionDocstringHeaderWarning, functionDocstringArgsWarning, functionDocstringReturnWarning, parseFunctionDocstring", "build/utils.go GetParamName"]}
{"id": "C98", "title": "Lints about names, visibility, depsets, single-element lists and deprecated functions report exactly the offenders", "statement": "confusing-name reports exactly the variables, functions, parameters and comprehension variables called I, l or O. name-conventions reports exactly the assigned ASCII names with letters of both cases that are not UpperCamelCase ending in Info. bzl-visibility reports exactly the loads of a module below the first internal or private directory of a directory that the file's path (also with java for javatests) does not begin with. overly-nested-depset reports exactly the assignments x = depset(..., transitive = [..., x, ...]) in a loop. list-append reports exactly x += [y], and its fix replaces exactly those by x.append(y). deprecated-function reports, per load in order, exactly the loaded functions whose docstring in the loaded file has a section Deprecated:. Not guaranteed (counterexamples proved): bzl-visibility compares directories by letters, so //foobar may load //foo/internal; the fix of list-append loses a comment before the closing bracket; names assigned in parentheses are not seen.", "quantifier": "all files (trees), nesting depths, module and path strings, file readers; all behaviours of the Unicode case functions that are right on ASCII", "why_tests_cant": "offenders can be anywhere in an arbitrarily nested file and the findings must be exact for all strings", "anchors": ["warn/warn_naming.go confusingNameWarning, nameConventionsWarning", "warn/warn_visibility.go bzlVisibilityWarning", "warn/warn_bazel_operation.go overlyNestedDepsetWarning", "warn/warn_operation.go listAppendWarning", "warn/warn_deprecated.go deprecatedFunctionWarning"]}
{"id": "C99", "title": "Lints about names and calls of the Bazel API report exactly the offenders", "statement": "In .bzl files: package-name and repository-name report exactly the identifiers PACKAGE_NAME / REPOSITORY_NAME to which no function, comprehension or global binding above them gives a meaning, and the fix renames exactly those (not the names in a load) and changes nothing else. filetype reports exactly the calls FileType(...) with such a name. attr-output-default reports the first default= argument of each attr.output(...), attr-license each attr.license(...). rule-impl-return reports, function by function, every return of struct(...) in the functions that are the implementation (by keyword or as the first argument) of some rule(...) call. provider-params reports the calls of provider without fields, or without documentation. attr-licenses / attr-applicable-licenses report each string key with that name. Nothing is reported in other files. Not guaranteed (counterexamples proved): a keyword argument PACKAGE_NAME = 1 is replaced and the file does not parse any more; parameters of lambdas and names loaded under another name are reported; returns of nested functions are; implementations in parentheses are not; keys of any dictionary are taken for attribute names.", "quantifier": "all files (trees), all nesting, all bindings in scope, all argument lists", "why_tests_cant": "the offender may be at any depth under any combination of bindings, and the fix must leave everything else alone", "anchors": ["warn/warn_bazel_api.go globalVariableUsageCheck, packageNameWarning, repositoryNameWarning, fileTypeWarning, attrOutputDefaultWarning, attrLicenseWarning, ruleImplReturnWarning, providerParamsWarning, attrNameWarning"]}
{"id": "C100", "title": "Every expression gets the type the rules give it, and only that", "statement": "DetectTypes gives every visited expression the type that the typing rules give it, and no type when none applies: literals (integers in decimal, hex and octal; other numbers are floats), collections, comprehensions, calls of the type constructors, ctx (as a parameter), ctx.actions, ctx.actions.args(), comparisons, operators that keep the type of their operands, and variables, which have the type of the last typed value assigned to them, before that place in the order of the visit, in the block that the name belongs to there. The rules determine the types uniquely; everything inside a keyword argument but its value has no type. Not guaranteed (counterexamples proved): a parameter with a default is taken to have the type of the default; a variable keeps its type after an untyped value is assigned; a number times a string is a number.", "quantifier": "all files (trees), all nesting, all scopes and assignments", "why_tests_cant": "types flow through variables and scopes across the whole file, in the order of the visit; no set of tests covers the combinations", "anchors": ["warn/types.go DetectTypes, walkOnce", "bzlenv/bzlenv.go Get, declareLocalVariables"]}
{"id": "C101", "title": "Lints about typed values report exactly the operations on values of that type", "statement": "With the types of C100: dict-concatenation reports exactly the + and += with an operand that is a dict; integer-division the / and /= with two integers; depset-union the +, |, +=, |= and .union(...) with a depset; dict-method-named-arg the default= arguments of pop, get and setdefault of a dict; string-iteration and depset-iteration the loops, comprehension clauses, (not) in, and arguments of iterating functions that iterate over a string / a depset; depset-items the items= argument or the unnamed depset given to depset(); ctx-args (in .bzl files only) the add() calls with join_with, before_each or map_fn together with the method to use instead; redefined-variable, at the top level, the later assignments of a name that do not extend a list. All in the order of the text.", "quantifier": "all files (trees), all types of operands, all nesting", "why_tests_cant": "a finding depends on the types of operands anywhere in the tree", "anchors": ["warn/warn_operation.go dictionaryConcatenationWarning, dictMethodNamedArgWarning, stringIterationWarning, integerDivisionWarning", "warn/warn_bazel_operation.go depsetUnionWarning, depsetIterationWarning", "warn/warn_bazel_api.go depsetItemsWarning, contextArgsAPIWarning", "warn/warn_control_flow.go redefinedVariableWarning"]}
{"id": "C102", "title": "no-effect reports exactly the statements without an effect", "statement": "no-effect reports, block by block (first the top level of the file, then each function, loop and branch in the order in which they open), exactly the statements that do nothing: those that are no definition, loop, condition, load, return, call, assignment, break/continue/pass or comment - except a string that has only comments before it in its block if that block is a file or a function (the docstring), and a list comprehension at the top level.", "quantifier": "all files (trees), all blocks at any depth", "why_tests_cant": "whether a statement is a docstring depends on everything before it in its block, and blocks nest without bound", "anchors": ["warn/warn_control_flow.go noEffectWarning, noEffectStatementsCheck", "build/walk.go WalkStatements"]}
{"id": "C103", "title": "unused-variable reports exactly the unused variables and functions", "statement": "unused-variable reports, for the file and every function at any depth, exactly the variables (parameters, targets of assignments and loops) and inner functions that are not used in it or in an inner function that does not define the name itself, and that are not excused: by a comment @unused, a parameter called name or starting with _, an underscored target among others or of a loop, and in .bzl and default files global names that do not start with _. A variable is reported at its (last) parameter or else at the target of the first statement that assigns it.", "quantifier": "all files (trees), all functions at any depth", "why_tests_cant": "scopes nest without bound and a use can be arbitrarily deep in inner functions, comprehensions and lambda expressions", "anchors": ["warn/warn_control_flow.go unusedVariableWarning, unusedVariableCheck, extractIdentsFromStmt", "build/utils.go GetParamIdent", "bzlenv/bzlenv.go CollectLValues"]}
{"id": "C104", "title": "The dict_* commands of buildozer change exactly the entries they name", "statement": "dict_set gives every key the last value asked for, dict_add gives a key without value the first one asked for, dict_remove removes exactly the entries with these keys (and the attribute when nothing is left), dict_replace_if_equal changes the value of the key iff it is the old string, label or identifier, and dict_list_add adds exactly the new elements to the list of the key in every configuration; all other keys and attributes are unchanged, and values are written as the command set writes strings.", "quantifier": "all rules (calls with any arguments), attributes, dictionaries and argument lists", "why_tests_cant": "repeated keys, repeated arguments and dictionaries of any size with entries of any kind", "anchors": ["edit/buildozer.go cmdDictAdd, cmdDictSet, cmdDictRemove, cmdDictReplaceIfEqual, cmdDictListAdd", "edit/edit.go DictionaryGet, DictionarySet, DictionaryDelete"]}
{"id": "C105", "title": "skylark-comment and skylark-docstring rename exactly the word", "statement": "In a text with at most one occurrence of the old name (upper or lower case), the lint replaces it by the new name in the same case unless it may be part of an URL, and changes nothing else; a finding is reported for a node iff one of its comments has such an occurrence (comments that disable the lint are kept), with all comments of the node renewed, and for the docstring of the file and of every top-level function iff it has one.", "quantifier": "all texts, syntax trees with any comments, and lists of statements", "why_tests_cant": "texts, comments and trees of any size", "anchors": ["warn/warn_cosmetic.go skylarkToStarlark, replaceSkylark, skylarkCommentWarning, checkSkylarkDocstring, skylarkDocstringWarning"]}
{"id": "C106", "title": "set_select makes the attribute a select with exactly the entries asked for", "statement": "After set_select the attribute is a call of select with a dictionary that has one entry for each different key, in the order in which they are named first; for list attributes the entry is the list of all values given for the key, otherwise the last one; no other attribute changes, and a key without value is an error.", "quantifier": "all rules, attributes, tables of attribute types and argument lists of any length", "why_tests_cant": "repeated keys in any order and any number of values", "anchors": ["edit/buildozer.go cmdSetSelect", "edit/edit.go attributeMustNotBeSorted"]}
{"id": "C107", "title": "substitute and substitute_load replace the first match and nothing else", "statement": "In the string value of the attribute, or in every string of its lists and of the lists of its selects, the first match of the regular expression is replaced by the expanded template and the rest of the text is kept; other elements and attributes are unchanged, a missing attribute is not created, and with * this holds for every attribute; substitute_load does this to the modules of the load statements and to nothing else.", "quantifier": "all rules, statements, attributes, regular expressions and templates (whatever they match and expand to)", "why_tests_cant": "every expression, template, text and shape of list", "anchors": ["edit/buildozer.go cmdSubstitute, cmdSubstituteLoad, attrKeysForPattern", "edit/edit.go stringSubstitute, ListSubstitute"]}
{"id": "C108", "title": "buildifier -r formats exactly the Starlark files below a directory", "statement": "For every argument that is a directory exactly the files below it with the name of a Starlark file are formatted, each once, without entering directories named .git and without following links; any other argument is formatted itself whatever its name is; if anything else cannot be read there is an error and nothing is formatted.", "quantifier": "all lists of arguments and all directory trees", "why_tests_cant": "trees of any depth and width, with any names and links", "anchors": ["buildifier/utils/utils.go isStarlarkFile, skip, ExpandDirectories"]}
{"id": "C109", "title": "buildozer //... finds exactly the BUILD files below a directory", "statement": "The search ends and finds exactly the files named BUILD.bazel, BUILD or BUCK in the directories below the root that can be read; links to directories are not followed and directories that cannot be read are left out.", "quantifier": "all directory trees", "why_tests_cant": "trees of any depth and width", "anchors": ["edit/buildozer.go findBuildFiles, BuildFileNames"]}
