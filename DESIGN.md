# Formal model of natasha/yargy in Rocq (Coq 8.16.1)

The code is read from `/repo` and never run. Every model definition cites the file and
lines it follows. Models contain no proofs, so they keep computing when a proof breaks.

Build: `cd rocq && coq_makefile -f _CoqProject -o Makefile && make -j4`.

## Layout (`rocq/theories/`)

Models:

| file | models |
|---|---|
| `Base.v` | strings as lists of code points, exceptions as values (`res`), lookups |
| `SpanModel.v` | `span.py`: get_nexts, span_size, resolve_spans with its arrays |
| `TokenModel.v` | `token.py`, Form and Grams of `morph.py` |
| `EarleyModel.v` | chart construction of `parser.py` (Chart, Column, State, predict, scan, complete, matches), the order on nodes and trees of `tree/constructors.py`; object ids, live lists and fuel are explicit |
| `TreeModel.v` | `tree/constructors.py` walks and `main`, `tree/transformators.py` (PropogateEmpty, Relations, ApplyRelations), `relations/graph.py`; leaf tokens live in a store because the code mutates them |
| `ParserModel.v` | Match, prepare_match(es), prepare_resolved_matches, extract, findall, find, match |
| `RelationModel.v` | `relations/bank.py`, `relations/constructors.py`, Gender/Number/Case of `morph.py` |
| `PredicateModel.v` | `predicates/*.py`: call, constrain, activate |
| `TokenizerModel.v` | `tokenizer.py`, a backtracking matcher for the patterns it uses, MorphAnalyzer and its cache |
| `TaggerModel.v` | `tagger.py` |
| `PipelineModel.v` | `pipelines.py` |
| `InterpModel.v` | `interpretation/*.py`, the interpretation transformations of `tree/transformators.py`, Match.fact |
| `RuleModel.v` | `rule/constructors.py`, `rule/transformators.py`, `rule/bnf.py`: a heap of rule objects, a state monad with the `visited` dictionary |
| `RuleBuild.v` | the calls a user builds rules with (`api.py`, methods of Rule) |
| `GrammarModel.v` | Parser.\_\_init\_\_: from a rule to the grammar of the chart |
| `TextModel.v` | Parser.findall/find/match/extract on a rule and a text |
| `RuleAddr.v` | rule transformations keyed by memory address instead of object identity |
| `DotModel.v` | `dot.py` and the dot transformators |
| `DotTextModel.v` | the text of a drawing: quoting, styles, lines (`dot.py`), labels of the drawing of a tree |
| `LabelModel.v` | labels of predicates, relations, normalizers, interpretators and rules, `BNF.source`, styles of the drawing of a rule |
| `ChartTextModel.v` | `Chart.source`, `Column.source`, `State.__str__` and `label` of `parser.py`; `Parser.chart` printed |
| `ReprModel.v` | `Record.__repr__` and `_repr_pretty_` of `record.py` for rules, productions and trees, `ForwardRule.__repr__` |
| `RaiseModel.v` | Parser.chart and the methods of Parser with predicates that may raise |
| `HashModel.v` | Column and Parser.chart of `parser.py` as stored: states, hash values, index |
| `DispatchModel.v` | `visitor.py`: classes, the order of their ancestors, the choice of visit_ methods; the methods of the passes over rules one by one |
| `ArgModel.v` | the functions rules are written with and Parser, called with arguments of any type |
| `StackModel.v`, `StackText.v` | the recursions over parse trees with a limited number of stack frames |
| `BuildStackModel.v` | the recursions over rules when a parser is built, with a limited number of stack frames |
| `LaterModel.v` | `extract` as a generator: the tokens of the leaves at each yield |
| `PatternModel.v` | pattern strings of token rules: reading, joining (`Tokenizer.compile`) and matching with groups |
| `GivenModel.v` | predicates of the bank made with arguments of any type, with iterators that are used up |
| `ClassModel.v` | fact classes as Python classes: members, derived classes, instances, what is read under a name |
| `RecordModel.v` | `record.py`, equality of Span and ForwardRule, hashes |

Specifications: `SpanSpec`, `EarleySpec` (derivations), `TreeSpec`, `RelationSpec`,
`ParserSpec`, `TokenizerSpec`, `PredicateSpec`, `PipelineSpec`, `InterpSpec`, `RuleSpec`
(words of a rule), `RuleAccept` (token sequences a rule accepts), `GrammarSpec`, `TextSpec`,
`RuleUsableSpec` (rules every pass can handle), `RuleCallSpec` (what a constructor means), `RuleCopySpec`
(the same rule elsewhere, the same results), `RuleAgainSpec` (histories of parsers),
`RuleLoopSpec` (rules without loops), `RuleNestSpec` (nested quantifiers), `HashSpec`, `RaiseSpec`, `EqualSpec`, `AbsentSpec` (rounds of a column),
`DotTextSpec` (a reader for the language DOT), `DispatchSpec` (inheritance, the closest method), `SizeSpec` (readings of a piece of text), `StackSpec` (levels of a tree, nested rules), `StepsSpec` (chains of attribute methods and their values), `EmailSpec` (addresses, phone numbers), `EntrySpec` (readings of beginnings of productions), `FactWordSpec` (the value of a reading), `WholeSpec` (rules that are not a part of themselves), `ChartTextSpec` (a reader for lines of charts), `WrittenSpec` (how labels are written), `ReprSpec` (what printing a rule shows),
`LaterSpec` (candidates with tokens of their own), `PatternSpec` (every pattern read and matched alone).
They do not use the model's algorithms.

Property theorems: `PropParser`, `PropTree`, `PropRelations`, `PropTokenizer`,
`PropPredicates`, `PropPipelines`, `PropInterp`, `PropRules`, `PropAgain`, `PropLoop`, `PropText`, `PropAddr`,
`PropDot`, `PropDotText`, `PropRecord`, `PropHash`, `PropRaise`, `PropEqual`, `PropAbsent`, `PropDispatch`, `PropPieces`, `PropLabel`, `PropAfter`, `PropArgs`, `PropSize`, `PropStack`, `PropBuildStack`, `PropSteps`, `PropClass`, `PropConcord`, `PropEmail`, `PropEntry`, `PropFactWord`, `PropWhole`, `PropGiven`, `PropLater`, `PropPattern`, `PropWide`, `PropWritten`, `PropRepr`. Each theorem is closed by `exact`, followed by `Print Assumptions`,
and has a concrete case beside it. All other files are proofs or concrete cases
(`*Cases.v`, `ParserRefuted.v`, `Runaway.v`).

Conformance tests: `TestsBase` (Russian text, rules as calls, runs), `TestsRule`,
`TestsTokenizer`, `TestsParser`, `TestsInterp` (the assertions of `/repo/tests`), `TestsDocs`
(recorded outputs: matches, facts, BNF sources, drawings of trees, the order of `extract`, the
number of states made).

## How the code is represented

* Exceptions are values: `res A` is `Ok a` or `Err e`. Loops that need not end take fuel and
  return `None` when it runs out; theorems are about runs that end, and separate theorems
  say which runs end (C08, C46, C59, C60, C68).
* Object identity. Nodes, leaves and rules carry numbers that stand for `id(object)`. A
  token is identified by its position in the text. The deduplication of chart states by
  hash is modelled as equality of the hashed tuple; `HashModel` is the chart with hash values
  (an arbitrary function of the tuple) and the stored index, and C74 relates the two.
* Iteration over a list that grows while it is iterated is modelled as such (`drain`).
* Sets are iterated in an order given by an unknown function `set_order`; theorems hold for
  every such order.
* Python's character tables are a record `unicode` of functions. The theorems that need facts
  about them take the facts as the hypothesis `sane`, shown to hold for a concrete table.
* pymorphy2 is a function from words to forms (`mo_analyze`) and a known-gram test.
* User functions (custom predicates, normalizers) are arbitrary functions that return or raise.

## Trusted base

* Coq's kernel (8.16.1). No axioms: `Print Assumptions` answers "Closed under the global
  context" for every theorem in the property files. The library axioms that `vcheck` counts
  (`Coq.ssr.ssrunder.Under_rel.*`) belong to a module of the standard library that some
  imported module loads; no theorem depends on them.
* `vm_compute` is used in concrete cases and witnesses.
* That the models follow the code. The models were written by reading the code; the code
  cannot be run here. Two things stand in for running it: the assertions of `/repo/tests` and
  the outputs recorded in `/repo/docs` (three notebooks, docstrings of `predicates/bank.py`)
  are computed in the model and agree (`Tests*.v`, about 195 cases). These are tests, not
  proofs. In them the answers of pymorphy2 are written by hand for the words that occur, and
  letters other than Latin and Russian ones have no case.

### Modelled

Everything in `yargy/*.py` except what is listed below.

### Not modelled, or simplified

* `dot2svg`; `__repr__` and `_repr_pretty_` of objects that are not rules, trees or predicates. In `ReprModel.v` the printer of IPython is
  modelled from its documentation: `break_`, `indent`, the stack of objects being printed; line breaks inside lists are arbitrary. In labels
  `repr` of values, names of functions, the label of a class of the user and the order in which
  grams of `inflected` are iterated are parameters.
  What graphviz reads is the reader `read_dot` of `DotTextSpec.v`, written from the published
  grammar; it covers what these texts use.
* Pattern strings: `PatternModel.v` reads the usual part of the syntax of `re` and answers None
  ("not modelled") for lookbehind, conditional groups, comments, inline flags, octal and named
  escapes, two-digit references, possessive quantifiers and group names that are not ASCII. Classes
  of characters and case folding are parameters; a category such as \d is tested on the character
  itself. What a group captured inside a negative lookahead is dropped. All other files use the syntax
  trees of `TokenizerModel.v`; for the rules of `tokenizer.py` C89 proves that strings and trees cut
  every text alike. `re.finditer` follows Python 3.7 or later for empty matches.
* An exception raised by a predicate while the chart is built is taken as a refusal of the
  token (`accepts`), except in `RaiseModel`, where it leaves the parser; C75 relates the two.
  User predicates with their own `constrain` or `activate` are left out.
* `gte` and `lte` take integers, `in_` takes a collection of strings (not a string); C90 (GivenModel.v)
  has arguments of any type, with integers as the only numbers, for predicates on their own.
* Taggers and generators are functions on complete lists.
* Interpretation: classes are lists of declarations; ClassModel.v (C91) has the Python classes behind them,
  without names that begin with two underscores, and C91 derives the lists from single inheritance.
  Left out: subclasses that redeclare an attribute with another kind; user values that
  are themselves results of interpretation; aliasing of merged lists (not observable);
  evaluation order inside `as_json`.
* Rules: ids are never reused in `RuleModel.v`. `RuleAddr.v` treats reuse (C29).
  Predicates are not objects of the heap. Direct use of the constructors Production, Rule and
  OrRule is left out. Relations and interpretations of a grammar are restricted to reachable
  rules.
* Arguments of wrong types: `ArgModel.v` has the functions rules are written with and Parser.
  Floats are left out (`repeatable(max=1.5)` is let through; building the parser would not
  end). Arguments of predicates are in `GivenModel.v`, of `fact` in `ClassModel.v`.
* Relations between nodes of a dot drawing are identified by number.
* Records: True and 1 are different values; comparison raises nothing.
* A recursion that would exceed Python's stack is taken as a normal run, except in `StackModel` and `BuildStackModel`, which count the
  frames of the recursions over parse trees (`tree.normalized`, `main`, comparison of trees) in `findall`, `match`, `find` and `extract`, and of the passes over rules when a parser is built.

## Findings: where the code does not do what one would expect

Each is a theorem with suffix `_refuted` (a witness computed in the model), unless noted.

1. A completed empty rule does not advance items added later to the same column, so some
   parses with absent optional parts are missed (C06), and `match` and `findall` disagree (C07).
2. Chart construction runs for ever on grammars with derivation cycles, for example
   `rule(a.optional(), b.optional()).repeatable()` on the text a (C09).
3. A rule that can be empty raises ValueError on every text when used as root (C15).
4. A blank line in a pipeline raises IndexError (C18).
5. Bounds may be dropped when quantifiers are nested directly (C21); the nestings that are
   proved to do no harm are in RuleNestSpec.v. A bound of 0 counts as
   not given (C20, `zero_bound_is_not_given`).
6. `forward().define(x.repeatable())` raises ValueError when the Parser is built (C24).
7. A second Parser built from a rule with forward rules loses names, interpretations and
   relations (C25).
8. The `visited` dictionary of rule transformations is keyed by ids of objects that may be
   freed, so rules may be confused (C29).
9. `main` of a rule picks a child by its position after empty children were removed, so the
   wrong token is checked or IndexError is raised (C31).
10. Relations are checked in one pass: tokens without jointly agreeing forms are accepted (C34).
11. Two common-gender forms do not agree with each other (C37).
12. Leaves are shared between candidate trees and narrowed in place, so one candidate changes
    the outcome of another (C38).
13. Merging partial facts replaces the values of repeatable attributes (C40).
14. `as_json` leaves facts unconverted when they were passed through a user function (C41).
15. `fact.spans` raises AttributeError with const interpretations (C42).
16. `normalized()` over a single item that is not a token raises TypeError (C43).
17. `Tokenizer.reset` assigns the rules before the pattern is compiled (C51). Removing every
    rule leaves a tokenizer that raises (C63).
18. And/Or/Not predicates do not narrow forms (C54).
19. Unknown tags are never rejected (C28); `tag` without a tagger raises AttributeError
    (`tag_without_tagger_raises`).
20. A generated rule name may equal a user's name (C57).
21. An attribute put on a wrapper around the root moves to the root when the root is part of
    itself, or when the root is `x.repeatable(max=1)` (C23).
22. The morph pipeline lookup may yield the same production twice and in set order; with
    an optional part in the rule the set of parses changes (C16).
23. `match` may return a match of a part of the text when the root rule is recursive (C62).
24. Spans, tokens and rules cannot be hashed, though a span equals a tuple that can (C61).
25. Which line a morph_pipeline reports for an ambiguous word depends on the iteration order
    of a set of strings, so on the hash seed of the process (C70).
26. The first Parser built from a rule activates its predicates in place, so a second Parser
    with another tokenizer uses the dictionary forms of the first (C25).
27. A state of the chart is dropped when its hash value is already there, so two states whose
    hashes collide are taken for one and a match can be lost; none is invented (C74).
28. `style.quote` does not escape backslashes, so a label that ends in an odd number of them
    runs into the text after it. The drawing of a tree over the token `\` is not DOT, and
    showing it raises ValueError (C77).
29. `rule(x.repeatable(), y.optional())` on the text "x x x x": findall reports "x x x" and
    "x" instead of the whole text (C79, the commonest form of finding 1: a repetition followed
    by an optional part, and at least four words). `match` loses texts too: with
    `inner = rule(b.optional(), c.optional(), e.optional(), d)`, the rule
    `or_(rule(a, inner, y), rule(a, c, inner, z))` does not match "a c d z". `AbsentSpec.timely`
    says for which rules this cannot happen, `AbsentCases.timelyb` computes it.
30. With `a = rule('a').optional()`, `rule(a, rule(a, 'c'))` does not find "c", but the same
    rule with a second `rule('a').optional()` in place of one `a` does (C78, an instance
    of finding 1).
31. `as_bnf` on a rule that has not been normalized: the guard `visit_ExtendedRule =
    raise_TypeError` is never chosen, because RuleTransformator has methods for all subclasses.
    Bounded repetitions pass as they are; a rule that is itself a bounded repetition recurses
    for ever; optional and repeated rules raise TypeError only because RuleTransformator calls
    `self.visit` with too many arguments (C81). Parser normalizes first, so this needs a direct
    call.
32. What stands before a piece of text can hide it: with `y = rule('y').optional()`,
    `or_(rule('a', rule('x').repeatable(), y), rule('z', 'a', 'x', 'x', y, 'w'))` finds "a x x" in
    "a x x", but only "a x" in "z a x x", although the second alternative accepts nothing there
    (C82, an instance of finding 1).
33. `inflected()` of `yargy.interpretation` has `grams=None`, and its label joins them: printing
    or drawing a rule with `.interpretation(inflected())` raises TypeError. Functions without
    `__name__` (`functools.partial`) given to `custom` make printing raise AttributeError (C76).
34. Two grammars can print the same text and accept different texts: the label of an interpreted
    rule is that of its interpretator, so two rules interpreted as the same attribute cannot be
    told apart; `in_`, `in_caseless`, `dictionary` and pipelines do not print what they contain
    (C83).
35. `rule` takes anything as an item: `rule('a', 1)`, `rule(None)` and `rule(['a', 'b'])` are made
    without complaint and accept nothing (C85). `pipeline('abc')` is taken letter by letter;
    `pipeline(eq('a'))` takes the attributes of the predicate as lines; `repeatable(min=True)` and
    `repeatable(min='')` are taken. `Parser('abc')` and `Parser(eq('a'))` raise AttributeError, not
    TypeError.
36. `Predicate.optional` has no argument: `gram('NOUN').optional(reverse=True)` raises TypeError,
    although `rule(gram('NOUN')).optional(reverse=True)` works and `Predicate.repeatable` takes
    `reverse` (C85).
37. A column of the chart keeps one state per derivation: the hash of a state contains the ids of
    its children, so equal stretches of text read in two ways are never shared.
    `or_(rule('a'), rule('a', 'a')).repeatable()` makes more than 2^n states for 2n+1 letters, and
    `findall` goes through all of them before it chooses one (C86).
38. `rule('a').repeatable()` raises `RecursionError` on long repetitions: every repeated item is one
    more level of the tree, and `tree.normalized` takes four frames per level (three since Python
    3.12). With the default limit of 1000, 251 letters are too many (C87).
39. The fact of a match changes after the match was yielded: `extract` applies the relations of the
    next candidate in place, to leaves it shares with the matches before. With
    `or_(rule(LAST, FIRST), rule(LAST)).interpretation(Name)` and gnc, the first match of 'Иванову Сашу' is
    `Name(last='иванов')` when read at once and `Name(last='иванова')` from `list(parser.extract(...))` (C88).
40. Patterns are pasted into one expression unchanged. `TokenRule('OPEN', '[')` with
    `TokenRule('CLOSE', ']')` is accepted although `[` is not a valid pattern: the text between the
    two becomes a set, brackets are not tokens, and `(`, `|`, `r`, `u`, `l`, `e` and digits of the id of a
    rule are `OPEN` tokens (C89).
41. A pattern with a reference by number changes its meaning: `([a-z])\1` is rejected as the first
    rule and never matches after another rule, since the groups of all rules are numbered together.
    Two patterns with a group of the same name are rejected (C89).
42. `TokenRule('A', 'a)|(b')`, invalid alone, is accepted, and tokenizing 'b' raises `KeyError: None` (C89).
43. Arguments of predicates are not checked: `eq(12)` and `length_eq('2')` never match, `gte('5')` raises
    TypeError at the first number of a text, `in_('рублей')` accepts 'руб' and `dictionary('кот')`
    accepts the letters (C90).
44. `in_(map(...))` and `dictionary(line.strip() for line in file)` use the iterator up: each element
    is accepted once, and a second parser made of the rule has an empty dictionary (C90).
45. An attribute called `self` makes `.fact` raise TypeError for every match; attributes called `as_json` or `spans`
    hide the properties; an attribute called `_raw` always shows the internal object. `fact` accepts all of these,
    and names that are no strings, which raise TypeError with the first match (C91).
46. A class derived from a fact class with a property or method named as an attribute raises AttributeError with
    the first match; one derived from two fact classes raises KeyError for attributes of the second (C91).
47. Facts made by calling the class have no `as_json` and no `spans` (AttributeError), and with a name declared
    twice cannot be made, while the parser makes them (C91).
48. Case agreement knows seven cases: forms in the rare cases of the dictionary (`gen1`, `gen2`, `acc2`, `loc1`,
    `loc2`) have an empty mask, so `в тёмном лесу` (loct, loc2) does not agree, while forms in two different rare cases do (C92).
49. Adding an alternative to `or_` can lose matches: with `s = rule('a').optional()` and `x` a rule nested around
    `rule(s, 'c')`, `or_(rule(s, 'd'), x)` does not find a text that `x` finds (C93).
50. `repeatable(max=n)` is expanded into rules nested n deep, and the passes that follow recurse over them with 14
    frames for each level (10 since Python 3.12): with the default limit of 1000 frames `Parser(rule('a').repeatable(max=73))`
    raises RecursionError (C94).
51. Methods of attributes cannot be chained freely: a third `custom`, `custom` after `const`, `normalized` after `custom`
    raise AttributeError, and repeatable attributes have neither `normalized` nor `inflected`, `const`, `custom` (C95).
52. `EMAIL_RULE` takes the full stop behind an address, `PHONE_RULE` takes the space before a number, three years in a row as one
    number, and cuts numbers of more than 14 digits (C96).
53. The label of `normalized().custom(f)` and `inflected(...).custom(f)` is `normalized().f`: the call of `custom` is not shown (C97).
54. `repr(Parser(r).rule)`, `repr(match.tree)` raise RecursionError when `r` has a repetition or is recursive: `Record.__repr__` follows
    the cycles made by `RemoveForwardTransformator`; the guard in `ForwardRule.__repr__` is for rules as written (C98).
55. `Chart.source`, shown by IPython, has equal lines for different states of an ambiguous grammar: a line leaves out the children, which
    `State.__hash__` tells apart (C99). Readings behind empty parts can be missing from it (finding on C06).
56. A dictionary used in two places loses its line: in `rule(P.interpretation(F.a.normalized()), P)` the attribute gets the words of the
    text, in `rule(P.interpretation(F.a.normalized()), eq('b'))` the line of the dictionary. `BNFTransformator.visit_WrapperRule` lifts
    shared rules, so the node has no `PipelineProduction` and `input.key` is not set (C100).
57. `Parser(E).match('( x + x')` of a recursive forward rule `E` gives the match of `x + x`; `Parser(rule(E)).match` gives None, and it does
    so for every rule that is not a part of itself (C62, C101).

## Properties

`partial` means the claim as stated is false of the code or not proved in full; the note
says which. `_refuted` theorems state the counterexample, the others the part that holds.

| id | property | status | theorems | note |
|---|---|---|---|---|
| C01 | findall matches never overlap and come in text order | proved | `findall_left_to_right`, `findall_lists_matches_in_text_order`, `findall_lists_matches_in_order_of_tagged_tokens` | by token ranges for every grammar; by positions in the text for every tokenizer, and with a tagger if it keeps the order of the tokens (the example reversing_tagger shows that this is needed) |
| C02 | findall covers as many tokens as possible | proved | `findall_best_candidates`, `findall_best_derivations`, `findall_finds_the_best_accepted_text` | candidates are the ranges of chart trees accepted when examined (any grammar); for grammars without relations and empty rules the candidates are exactly the derivable ranges |
| C03 | findall's choice among equally covering selections is canonical | proved | `findall_best_candidates`, `findall_best_derivations`, `findall_finds_the_best_accepted_text` | best_ranges states coverage and the lexicographic choice |
| C04 | Every reported parse is a real derivation of the grammar | proved | `trees_are_derivations`, `match_from_tree`, `findall_from_tree`, `extract_from_tree` |  |
| C05 | Every parse without empty parts is found | proved | `nonempty_parses_found` |  |
| C06 | Every parse is found, optional parts included | partial | `every_parse_found_refuted`, `every_parse_found_partial`, `empty_parts_behind_words_are_in_time`, `grammars_without_empty_parts_are_in_time`, `nonempty_parses_found` | the full claim is false of the code: completion of an empty rule does not see items added later to the same column; proved for all derivations of grammars in which empty parts are completed in time (a bound on rounds of the work list that can be computed), and in any grammar for derivations without empty parts (C05) |
| C07 | match and findall agree on the whole text | partial | `match_findall_agree_refuted`, `match_trees_in_findall_partial`, `match_findall_agree_partial`, `match_findall_agree_with_optional_parts_partial`, `whole_match_is_that_of_findall` | false of the code with optional parts; proved for parses without empty parts, and as equality of the reported matches for grammars without relations in which empty parts are completed in time (C06) |
| C08 | Parsing terminates for every grammar without derivation cycles | proved | `parsing_terminates`, `parse_does_not_depend_on_fuel` |  |
| C09 | Parsing terminates for every grammar that can be built | partial | `parser_always_returns_refuted`, `parser_returns_without_repetitions_refuted`, `parsing_always_terminates_refuted`, `left_unit_recursion_loops`, `optional_pair_repeatable_loops`, `parsing_terminates`, `parsing_ends_for_rules_without_loops` | false of the code: the chart loop runs forever for rules built with the library, on short texts, whatever the fuel; termination proved for acyclic grammars (C08) and for rules without loops (C72) |
| C10 | No parse is reported twice | proved | `no_parse_twice` |  |
| C11 | Comparing parse trees is a strict total order and never raises | proved | `comparison_total`, `preference_strict`, `preference_as_written` |  |
| C12 | match returns the most preferred acceptable parse | proved | `match_most_preferred`, `match_best_derivation`, `match_best_derivation_with_optional_parts` |  |
| C13 | findall keeps, for each range, the most preferred acceptable parse | proved | `findall_best_candidates`, `findall_best_derivations`, `findall_best_derivations_with_optional_parts` |  |
| C14 | match.tokens are the consecutive tokens of the range and match.span encloses them | proved | `match_tokens_are_the_text`, `findall_tokens_are_the_text`, `extract_tokens_are_the_text` |  |
| C15 | A rule that can be empty is usable as a root rule | partial | `empty_root_always_raises`, `nullable_root_usable_refuted`, `nonempty_root_never_raises` | false of the code: ValueError on every text; proved: a root rule that cannot be empty never raises when every relation has its tokens |
| C16 | Pipeline index lookups do not change results | partial | `lookup_finds_exactly_the_candidates`, `lookup_keeps_the_order_of_lines`, `grammars_with_pipelines_are_sound`, `grammars_with_pipelines_are_complete`, `lookup_keeps_parses`, `lookup_keeps_parses_refuted`, `lookup_does_not_change_parses_partial`, `morph_lookup_order_refuted` | soundness and completeness of the three lookups proved for all dictionaries and tokens; without morph_pipeline the lists of parses with and without the lookup are equal element by element (lookup_keeps_parses). False with a morph_pipeline: its lookup may yield a production twice and in set order, and with an optional part that changes the set of parses (lookup_keeps_parses_refuted); for morph pipelines the sets are proved equal for parses without empty parts |
| C17 | A pipeline matches exactly its dictionary | proved | `match_accepts_exactly_the_dictionary`, `findall_finds_dictionary_entries`, `first_agreeing_line_is_used` |  |
| C18 | A pipeline may contain blank lines | partial | `blank_line_always_raises`, `blank_line_works_refuted`, `pipelines_are_accepted` | false of the code: IndexError exactly when some line has no tokens |
| C19 | Quantifiers denote bounded repetition | proved | `optional_accepts_nothing_or_one`, `repeatable_accepts_bounded_repetitions` | for rules built by calls of the library whose Parser is built successfully; a bound of 0 counts as not given (C20) |
| C20 | repeatable(min,max) validates its bounds | proved | `repeatable_checks_its_bounds`, `repeatable_raises_nothing_else`, `zero_bound_is_not_given` |  |
| C21 | Nested quantifiers compose | partial | `nested_quantifiers_compose_refuted`, `optional_accepts_nothing_or_one`, `repeatable_accepts_bounded_repetitions`, `constructors_compose` | false of the code: r.repeatable().repeatable(min=2) accepts one r. Proved for the nestings that do no harm (RuleNestSpec.v): quantifiers each satisfied by one occurrence put on each other, bounded repetitions put on each other, and optional() of these; nesting of the two sorts otherwise may lose bounds |
| C22 | Normalisation and BNF conversion preserve what the rule accepts | proved | `grammar_accepts_what_the_rule_accepts`, `parses_spell_the_words_of_the_rule`, `grammar_is_usable` |  |
| C23 | Interpretations, relations and names stay on the rule they were put on | partial | `attribute_stays_on_its_rule_refuted`, `attributes_stay_on_their_rule`, `rules_of_a_grammar_are_named` | false of the code when the root of the parser is also the only child of a wrapper reached through a forward rule, or is x.repeatable(max=1); proved for all other roots (top not_once) |
| C24 | A forward rule can be defined by any rule | partial | `forward_defined_by_any_rule_refuted`, `parser_is_built_from_usable_rules`, `define_rejects_only_forward_rules` | false of the code: a definition that becomes a forward rule itself (x.repeatable()) raises ValueError in Parser; proved: with every other definition, and predicates and pipelines that can be activated, Parser is built |
| C25 | Building a parser does not consume the rule | partial | `rule_can_be_used_again`, `forwards_can_be_used_once`, `rule_can_be_used_again_refuted`, `rule_can_be_used_with_other_tokenizers_refuted` | proved for every history of parser constructions (same tokenizer and tagger) from rules without forward rules, and from rules in which no forward rule is used twice: every later parser gives the same results as if it were the first. False when a forward rule is used twice (the second parser loses names, interpretations and relations) and when the tokenizers differ (the predicates stay activated with the first one). Constructions that raise are not part of the histories |
| C26 | main(x) designates the main term | proved | `rule_has_the_designated_main_term`, `parses_spell_the_words_of_the_rule` | the second theorem covers normalisation and BNF: the head of each word is kept |
| C27 | Greedy and reverse quantifiers order their alternatives as documented | proved | `quantifier_choices_are_ordered`, `optional_orders_its_choices`, `repeatable_orders_its_choices` |  |
| C28 | Activation replaces every context-dependent predicate, is idempotent and rejects unknown names | partial | `activated_rule_holds_no_scheme`, `rule_with_unknown_name_is_rejected`, `activation_leaves_no_scheme`, `activation_is_idempotent`, `activation_rejects_unknown_names`, `unknown_tag_rejected_refuted`, `tag_without_tagger_raises` | proved for predicates and for whole rules except that unknown tags are never rejected (false of the code) |
| C29 | Rule transformations do not confuse rules | partial | `nested_rules_are_not_confused_refuted`, `forward_rules_are_not_confused_refuted`, `rules_are_not_confused_partial` | false of the code: temporaries and replaced definitions are freed while their ids stay in the dictionary; proved when no address is given out twice |
| C30 | Removing empty nodes keeps the tokens | proved | `normalized_keeps_leaves`, `normalized_changes_nothing_without_empty_nodes`, `normalized_root_missing_iff_no_leaf` |  |
| C31 | The main term of a rule is the one checked by relations | partial | `main_term_is_checked_refuted`, `main_term_never_raises_refuted`, `main_term_is_checked_partial` | false of the code when an optional part before main(...) is absent; proved when the parts before the main term are non-empty |
| C32 | Interpretation sees every token exactly once, under its nearest interpreted rule | proved | `interpreted_tree_is_condensed`, `interpreted_tree_keeps_every_leaf`, `only_interpreted_roots_are_interpreted`, `visit_computes_the_condensed_tree` |  |
| C33 | Relations never reject a consistent assignment | proved | `consistent_choice_is_accepted`, `match_none_only_without_consistent_choice`, `library_relations_respect_forms` | relative to the token forms held by the leaves when the tree is examined (for match: the forms of the text) |
| C34 | Relations only accept tokens with agreeing forms | partial | `accepted_tokens_agree_refuted`, `accepted_pair_agrees_partial`, `accepted_group_agrees_partial`, `case_agreement_of_declinable_words` | false of the code when a token takes part in several relations; proved for isolated pairs and for relations that are equivalences on the forms |
| C35 | Relation filtering only removes forms, and only from related tokens | proved | `relations_only_remove_forms` |  |
| C36 | Agreement relations are symmetric and compose as boolean connectives | proved | `relations_are_symmetric`, `gnc_is_conjunction`, `relation_connectives` |  |
| C37 | A form agrees with itself | partial | `form_agrees_with_itself_refuted`, `form_agrees_with_itself_partial` | false of the code for common gender (Ms-f) and forms without number; exact characterisation proved |
| C38 | Matches do not influence each other | partial | `matches_are_independent_refuted`, `acceptance_is_independent_refuted`, `matches_are_independent_partial` | false of the code: leaves are shared between candidate trees and narrowed in place; proved when no leaf related in one candidate is part of a candidate with another range |
| C39 | Facts collect attribute values as declared | proved | `plain_attribute_default`, `plain_attribute_last_value`, `repeatable_attribute_all_values`, `facts_list_attributes_in_declaration_order` |  |
| C40 | Merging partial facts keeps all repeatable values | partial | `merging_keeps_repeatable_values_refuted`, `merged_plain_attribute_last_part`, `merged_repeatable_attribute_partial` | false of the code for repeatable attributes (the last part that sets one replaces the earlier values); the plain half is proved |
| C41 | as_json shows exactly the attributes that are not None | partial | `json_agrees_with_the_fact_refuted`, `json_agrees_with_the_fact_partial`, `facts_list_attributes_in_declaration_order` | false of the code when a fact is passed through a user function or is a default; proved when user functions and defaults give values without facts |
| C42 | fact.spans lists the spans of the text the fact came from | partial | `fact_spans_never_raise_refuted`, `fact_spans_are_spans_of_its_text_partial`, `fact_spans_inside_the_match_partial` | false of the code with const interpretations (AttributeError); proved for interpretations without const |
| C43 | Interpretation raises TypeError exactly for ambiguous inputs | partial | `attribute_raises_iff_ambiguous`, `normalizer_raises_if_ambiguous_partial`, `normalizer_raises_iff_ambiguous_refuted`, `const_never_raises`, `facts_ignore_other_items` | false of the code for normalized()/inflected() over a single item that is not a token (TypeError); the rest is proved |
| C44 | Custom functions are applied in the order written | proved | `custom_is_applied_last`, `normalizer_custom_is_applied_last`, `custom_twice_composes`, `custom_keeps_the_attribute`, `reinterpreting_replaces_the_attribute` |  |
| C45 | Text of an attribute value is the joined tokens | proved | `attribute_value_is_the_joined_text`, `joined_text_is_unique`, `joined_text_is_the_source_text`, `normalized_pipeline_part_is_the_line` |  |
| C46 | Tokens are ordered, disjoint, faithful slices of the text | proved | `tokens_are_slices_in_order`, `tokenizing_terminates` |  |
| C47 | The default tokenizer loses no visible character | proved | `default_loses_no_visible_character`, `character_table_is_sane` | assumes the stated facts about the Unicode tables (sane) |
| C48 | The default tokenizer takes maximal words and numbers and types them by their characters | proved | `default_tokens_are_maximal_and_typed`, `character_table_is_sane` | assumes the stated facts about the Unicode tables (sane) |
| C49 | join_tokens undoes tokenization up to white space | proved | `join_of_tokens`, `join_of_default_tokens`, `character_table_is_sane` | assumes the stated facts about the Unicode tables (sane) |
| C50 | Tokenizer reconfiguration is prioritised and local | proved | `add_rules_puts_them_first`, `remove_types_removes_exactly`, `remove_known_types_succeeds`, `constructor_compiles_rules`, `rules_are_tried_in_order` | tokenizers are values in the model: that other tokenizers are unaffected holds by construction (the code builds a new list, tokenizer.py 64, 70-73) |
| C51 | A failed reconfiguration leaves the tokenizer unchanged | partial | `failed_call_changes_nothing_refuted`, `failed_call_changes_nothing_partial` | false of the code: self.rules is assigned before the pattern is compiled |
| C52 | The morphology cache is transparent | proved | `cache_is_transparent_and_bounded`, `normal_forms_are_those_of_the_analyses` | the analyzer is a function of the word; the returned lists are not mutated by callers |
| C53 | Predicates mean what their documentation says, and compose as booleans | proved | `predicates_mean_what_they_say`, `caseless_compares_lowered`, `in_caseless_compares_lowered`, `dictionary_shares_a_normal_form`, `normalized_shares_a_normal_form` |  |
| C54 | A matched gram predicate narrows the token to the matching forms | partial | `gram_keeps_exactly_its_forms`, `is_single_keeps_exactly_its_forms`, `other_predicates_keep_the_token`, `leaf_of_gram_carries_its_forms`, `leaf_of_is_single_carries_its_forms`, `bank_predicates_only_drop_forms`, `constrain_returns_on_accepted_tokens`, `composition_narrows_refuted` | proved for gram and is_single; and_/or_/not_ compositions do not narrow (false of the code for them) |
| C55 | Morphological tokenization adds forms to Russian words only | proved | `morph_tokenizer_adds_forms_to_russian_words` |  |
| C56 | Taggers compose left to right and keep the token | proved | `taggers_compose_left_to_right`, `tagging_keeps_the_token` |  |
| C57 | Generated grammar names are total and do not clash | partial | `names_do_not_clash_refuted`, `rules_of_a_grammar_are_named`, `generated_names_are_different` | every rule is named, generated names are R0, R1, ... without repetition; false of the code: a generated name may equal a name given by the user |
| C58 | Dot output numbers nodes consistently | proved | `dot_numbers_are_consistent`, `dot_of_a_rule`, `dot_of_a_tree`, `drawing_a_rule_ends`, `drawing_a_tree_ends` | objects are identified by id; labels and styles are not modelled |
| C59 | Walking a rule graph visits every reachable object exactly once | proved | `walk_visits_reachable_rules_once`, `walk_over_rules_terminates` |  |
| C60 | Walking a tree visits nodes top-down, left to right | proved | `walk_visits_each_node_once_in_order`, `walk_terminates`, `walk_leaves_in_text_order`, `breadth_first_walk_visits_level_by_level`, `breadth_first_walk_terminates` |  |
| C61 | Record equality is an equivalence and consistent with hashing | partial | `equality_is_reflexive`, `equality_is_symmetric`, `equality_is_transitive`, `equality_is_by_value`, `inequality_is_by_value`, `equal_hashes_refuted`, `equal_hashes_partial`, `what_can_be_hashed` | equality is an equivalence; the hash part is false of the code: spans, tokens and rules cannot be hashed; equal values that can be hashed have equal hashes |
| C62 | match only matches the whole text | partial | `match_whole_text_refuted`, `match_whole_text_partial`, `start_rule_is_not_used`, `accepted_text_is_matched`, `accepted_text_is_matched_with_optional_parts`, `match_of_a_repeated_rule_is_of_the_whole_text` | false of the code for start rules used recursively; proved: the whole text is matched exactly if the rule accepts it, for every rule without relations; and nothing else is matched when the start rule occurs in no production, which is so for every rule that is not a part of itself and is not a forward, optional or repeated rule at the top (C101); and when the start rule is used only by itself as the last term, as in repeated rules (start_last) |
| C63 | Tokenizing never raises | partial | `tokenizing_never_raises_refuted`, `tokenizer_without_rules_raises`, `rules_are_tried_in_order` | false of the code when every rule was removed; with at least one rule it never raises |
| C64 | find returns the first match of findall | proved | `find_is_the_first_match`, `parser_find_is_the_first_match` |  |
| C65 | Every reported match is a piece of the text accepted by the rule as written | proved | `findall_reports_accepted_text`, `match_reports_accepted_text`, `extract_reports_accepted_text`, `tokens_spell_the_text`, `tagger_is_given_the_tokens_of_the_text` |  |
| C66 | A text accepted by the rule is found | proved | `findall_finds_the_best_accepted_text`, `match_finds_accepted_text`, `accepted_text_is_matched` |  |
| C67 | Ambiguous text is read with the earliest alternatives | proved | `earliest_alternatives_are_read`, `earliest_alternatives_are_read_with_optional_parts`, `earliest_alternatives_are_matched_with_optional_parts`, `whole_match_is_the_earliest_reading` |  |
| C68 | Building a parser ends | proved | `parser_construction_ends` | with enough fuel the outcome is a grammar or an exception, always the same |
| C69 | Rules compose as their constructors say | proved | `constructors_compose`, `forward_accepts_its_definition` |  |
| C70 | Results do not depend on the iteration order of sets | partial | `results_do_not_depend_on_set_order`, `morph_results_do_not_depend_on_set_order_refuted` | proved for every rule without a morph_pipeline (results equal, exceptions included). False for morph_pipeline: the lookup iterates a set of normal forms, so which line of the dictionary is reported for an ambiguous word depends on the hash seed |
| C71 | A parser depends only on the structure of its rule | proved | `parser_depends_on_the_structure_of_the_rule` |  |
| C72 | Parsing ends for every rule without loops | proved | `parsing_ends_for_rules_without_loops`, `plain_rules_without_empty_repetitions_have_no_loops`, `grammars_of_rules_without_loops` | a repetition applied directly to an optional rule counts as repeating something that can be empty, though the passes merge the two: such rules are outside the hypothesis |
| C73 | normalized() and inflected() join the words of the first forms | proved | `words_are_normalized_or_inflected` | the analyzer's answer to inflect is an arbitrary function; a token with an empty list of forms raises IndexError, which is stated |
| C74 | Deduplication by hash value does not change the results | partial | `hash_values_change_nothing`, `hash_values_invent_nothing`, `hash_values_lose_matches_refuted` | sound for every hash function and exact without collisions; for every hash function with finitely many values (Python has 64 bits) there are a grammar and a text in which a match is lost. That Python chooses object ids leading to a collision is unlikely, not impossible |
| C75 | Exceptions of predicates | proved | `answering_predicates_change_nothing`, `exceptions_come_from_asked_predicates`, `exceptions_are_not_lost`, `exceptions_are_the_users` | the third theorem covers predicates reached without empty parts (finding 1: others may never be asked); the text-level theorem assumes that tokens are not empty and INT tokens readable by int |
| C76 | Every rule can be printed and drawn | partial | `every_grammar_is_printed_refuted`, `grammars_are_printed`, `rules_of_grammars_are_drawn`, `other_objects_are_drawn`, `predicates_have_labels`, `interpretators_have_labels` | false of the code: inflected() without grams and functions without a name have no label; proved: the text is made exactly when all labels it needs exist, and when they do |
| C77 | The text of a drawing is the drawing | partial | `drawings_are_readable_refuted`, `drawing_is_read_back_partial`, `tree_drawing_is_read_back_partial`, `quoted_values_with_even_backslashes` | false of the code for labels with a backslash before a quote or at the end, which quote does not escape; proved for all drawings whose labels have even runs of backslashes there, a condition shown to be exact for a quoted value. Graphviz is represented by the reader read_dot |
| C78 | Rules that accept the same texts are found at the same places | partial | `equal_rules_are_found_at_the_same_places_refuted`, `equal_rules_are_found_at_the_same_places_partial`, `equal_rules_are_first_found_at_the_same_place_partial`, `equal_rules_match_the_same_texts_partial`, `alternatives_are_a_set`, `nested_alternatives`, `nested_sequences`, `alternatives_distribute`, `alternatives_of_predicates` | false of the code with optional parts used twice; proved for rules without empty parts and relations, together with laws that make rules accept the same pieces |
| C79 | What a rule with optional parts accepts is found | partial | `findall_finds_optional_parts_refuted`, `match_finds_optional_parts_refuted`, `findall_finds_optional_parts_partial`, `match_finds_optional_parts_partial`, `in_time_by_computation`, `accepted_text_is_matched_with_optional_parts` | false of the code: rule(x.repeatable(), y.optional()) on x x x x; proved for rules in whose grammar the empty parts are completed in time, which can be computed and includes all rules without empty parts and those whose optional parts stand behind words (C06) |
| C80 | Every object is visited by the method meant for it | proved | `ancestors_come_in_order`, `isinstance_is_inheritance`, `closest_method_is_chosen`, `no_method_is_chosen_only_if_there_is_none`, `every_part_has_a_method`, `every_predicate_is_drawn`, `every_node_has_a_method`, `normalization_by_choice_of_methods`, `bnf_by_choice_of_methods`, `activation_by_choice_of_methods`, `removing_forwards_by_choice_of_methods` | the tables of classes and methods are transcribed from the class statements; the four last theorems tie them to the passes of RuleModel.v |
| C81 | as_bnf rejects rules that have not been normalized | partial | `unnormalized_rules_are_rejected_refuted`, `unnormalized_rules_are_rejected_partial`, `guard_for_extended_rules_is_never_chosen` | false of the code: bounded repetitions are passed through; proved for all other parts of rules without forward rules |
| C82 | A text is searched piece by piece | partial | `texts_are_searched_piece_by_piece_refuted`, `texts_are_searched_piece_by_piece_partial`, `places_found_piece_by_piece_partial`, `tokens_of_joined_texts`, `white_space_separates`, `bank_predicates_ignore_positions`, `composed_taggers_tag_apart` | false of the code: an optional part shared by two alternatives may be completed early because of the text before; proved for rules whose empty parts are completed in time, without relations |
| C83 | The printed grammar determines what is accepted | partial | `text_determines_language_refuted`, `printed_lines_are_read_back`, `same_text_same_language`, `labels_tell_predicates`, `labels_tell_all_predicates_refuted` | false of the code: interpretators hide the names of rules, in_ and dictionaries print dots; proved when the labels of rules are different and predicates with equal labels judge alike, without dictionaries |
| C84 | What follows in a text does not change what was found before it | proved | `extract_begins_with_the_matches_of_the_beginning`, `findall_begins_with_the_matches_of_the_beginning`, `find_finds_the_match_of_the_beginning`, `nothing_crosses_a_foreign_token`, `findall_up_to_a_foreign_token` | for all rules harmless in the sense of RuleNestSpec, also with relations, dictionaries and late empty parts; matches compared by range, span, tokens and derivation |
| C85 | Arguments of a wrong type are rejected at the call | partial | `wrong_types_are_rejected_refuted`, `wrong_types_are_rejected_partial`, `right_types_are_taken_refuted`, `right_types_are_taken_partial`, `programs_with_any_arguments_are_built`, `rules_with_wrong_items_accept_nothing`, `rules_with_wrong_items_find_nothing`, `one_string_is_taken_letter_by_letter`, `parsers_are_made_of_rules`, `parsers_of_wrong_types_raise` | false: items of rule are not checked, lines of a pipeline may be a string or a record, bounds may be True or anything that counts as false, and Predicate.optional rejects reverse. Proved: exactly these exceptions, everything else raises TypeError, AttributeError or ValueError as described; whatever is let through gives well-formed rules; a rule with a wrong item accepts nothing |
| C86 | Parsing takes polynomial time | partial | `parsing_is_polynomial_refuted`, `parsing_is_polynomial_partial`, `states_of_a_column_partial`, `one_reading_of_every_piece` | false of the code: columns hold one state per derivation, so or_(rule('a'), rule('a', 'a')).repeatable() needs exponentially many; proved: at most m times (size of the grammar) times (number of tokens) states in a column and polynomially many steps when every beginning of a production reads every piece in at most m ways, with a criterion for m = 1. Also gives an end of parsing for rules with loops. The numbers count states and nodes made, not the time of single operations |
| C87 | No text exceeds Python's stack | partial | `stack_is_never_exceeded_refuted`, `stack_is_never_exceeded_partial`, `stack_of_nested_rules_partial`, `stack_does_not_change_results`, `stack_for_find_and_extract_partial`, `nested_stack_for_find_and_extract_partial`, `stack_does_not_change_find_and_extract` | false: tree.normalized recurses three or four frames per level of the tree and every item of a repetition is one level, so rule('a').repeatable() raises RecursionError on every text long enough (251 letters with the default limit). Proved: for every rule without loops a stack of k * (number of tokens + 1) frames is enough, for rules that do not contain themselves a constant one, and a stack too small never changes a result in any other way. The frames leading to the recursion, the construction of the parser and .fact are not counted |
| C88 | A match does not change after it was reported | partial | `reported_match_does_not_change_refuted`, `found_match_shows_its_tokens_refuted`, `yields_are_those_of_extract`, `reported_match_only_loses_forms_partial`, `found_match_only_loses_forms_partial`, `first_match_only_loses_forms_partial`, `match_shows_its_tokens`, `reported_match_does_not_change_partial`, `found_match_shows_its_tokens_partial`, `matches_without_relations_do_not_change_partial` | false of the code: relations replace the tokens of leaves in place, and candidates share leaves, so the fact of a match yielded by extract changes when the generator goes on, and leaves of a match of findall may hold other forms than match.tokens. Proved: for match always; for the others when no related leaf is part of another candidate (all rules without relations); in general the leaves hold the same tokens with perhaps fewer forms |
| C89 | A token rule matches what its pattern matches alone | partial | `valid_patterns_are_accepted_refuted`, `patterns_match_as_alone_refuted`, `group_names_are_local_refuted`, `invalid_patterns_are_rejected_refuted`, `tokens_have_a_rule_refuted`, `patterns_match_as_alone_partial`, `tokens_come_from_first_rule_partial`, `tokens_have_a_rule_partial`, `repeated_names_are_rejected`, `question_mark_prefers_the_shortest`, `strings_cut_as_trees`, `known_rules_cut_as_trees`, `default_rules_cut_as_trees` | false of the code: patterns are pasted into one expression, so references by number point to other groups, group names clash, and invalid patterns may be accepted and steal the text between rules. Proved for all lists of rules whose patterns are valid alone, without references by number and with distinct group names: accepted, every pattern matches as alone, every token is the first match of the first rule that matches. The rules of tokenizer.py as strings cut every text as the trees used in the other files. Syntax of re not covered is listed in DESIGN.md |
| C90 | A predicate made with an argument of the wrong kind is rejected, or means the obvious thing | partial | `wrong_arguments_are_rejected_refuted`, `wrong_arguments_are_rejected_early_refuted`, `string_is_one_word_refuted`, `string_is_one_entry_refuted`, `answers_do_not_change_refuted`, `parsers_of_a_predicate_agree_refuted`, `documented_arguments_work`, `answers_do_not_change_partial`, `parsers_of_a_predicate_agree_partial`, `iterator_is_used_once`, `iterator_is_read_once`, `string_gives_substrings`, `string_gives_letters`, `in_caseless_string_gives_letters`, `wrong_arguments_accept_nothing`, `wrong_bounds_fail_at_numbers`, `booleans_are_numbers`, `wrong_collections_fail_at_tokens`, `caseless_is_checked`, `in_caseless_is_checked`, `schemes_are_checked`, `dictionary_is_checked`, `custom_types_are_checked` | false of the code: eq(12) and tag(5) are accepted and match nothing, gte('5') raises TypeError only when a number is judged, in_('dollars') accepts 'doll', dictionary('cat') holds letters, in_ and dictionary of an iterator change their answers. Proved: documented arguments work as in the typed model for every token and any number of parsers; without iterators answers never change; the exact behaviour of the wrong arguments (nothing accepted, substrings, letters, elements used once) and when each is rejected. What pymorphy raises for a word that is no string is a parameter. |
| C91 | A fact shows its attributes whatever they are called and however its class is derived | partial | `facts_show_their_attributes_refuted`, `facts_show_json_refuted`, `facts_show_raw_refuted`, `subclasses_collect_facts_refuted`, `names_are_checked_refuted`, `subclasses_of_two_classes_refuted`, `facts_by_hand_show_json_refuted`, `facts_by_hand_are_made_refuted`, `facts_show_their_attributes_partial`, `attribute_called_self_raises`, `attribute_called_raw_is_lost`, `facts_are_begun_iff_names_are_attributes`, `begun_facts_have_the_declared_attributes`, `classes_have_their_attributes`, `class_statements_may_add`, `class_statements_may_not_replace`, `subclasses_have_the_attributes_partial`, `facts_by_hand_show_their_attributes`, `facts_by_hand_have_no_json`, `classes_with_properties_are_not_called`, `string_gives_letter_attributes`, `repeatable_attributes_have_no_default` | false of the code: attributes called self, as_json, spans and _raw, subclasses that redefine an attribute, subclasses of two fact classes, facts made by hand; proved for all other names with one base per class; which classes can collect facts is stated exactly |
| C92 | Agreement is sharing a case, a number, a gender | partial | `forms_of_one_case_agree_refuted`, `agreeing_forms_share_a_case_refuted`, `case_agreement_is_one_case_partial`, `number_agreement_is_a_common_number`, `gender_agreement_is_a_common_gender`, `gender_agreement_exactly`, `number_agreement_exactly`, `case_agreement_exactly`, `gnc_agreement_exactly` | false of the code for the rare cases: a form in the second locative does not agree with one in the locative and agrees with one in the second genitive; proved for forms with exactly one of the seven usual cases, and the three relations characterised exactly for all forms |
| C93 | Adding an alternative to a rule never makes the parser find less | partial | `alternatives_lose_nothing_refuted`, `alternatives_find_as_many_characters_refuted`, `findall_of_more_alternatives_finds_more_partial`, `find_of_more_alternatives_finds_partial`, `match_of_more_alternatives_matches_partial`, `alternatives_accept_more`, `more_alternatives_accept_more`, `alternatives_accept_the_least` | false of the code: with an optional part used by two alternatives a match is lost, and fewer characters may be covered since tokens are counted; proved (counting tokens) for rules without empty parts and relations, and for rules whose empty parts are completed in time |
| C94 | Building a parser does not run out of Python's stack | partial | `building_fits_on_the_stack_refuted`, `repeatable_max_takes_stack`, `large_max_does_not_build`, `building_fits_on_the_stack_partial`, `stack_does_not_change_what_is_built` | False as stated: repeatable(max=n) is replaced by rules nested n deep, and the passes over them take 14 frames for each (10 since Python 3.12), so for every limit there is an n for which RecursionError is raised (max=73 with 1000 frames). Proved: that lower bound for every word and n; for every rule there is a limit from which on its parser is built as without a limit; a limit never changes what is built. Frames of functions that call nothing in turn are not counted. |
| C95 | normalized, inflected, const and custom can be chained on attributes and normalizers, and interpretation() takes them | partial | `attribute_methods_chain_freely_refuted`, `attribute_methods_chain_partial`, `repeatable_attributes_have_no_methods`, `attribute_chain_computes_its_value`, `normalizers_chain_like_attributes`, `normalizer_chain_computes_its_value`, `predicate_interpretation_takes`, `rule_interpretation_takes`, `interpretation_of_a_predicate_is_that_of_its_rule`, `rule_interpretation_means` | False as stated: custom cannot follow custom().custom(), normalized().custom() or const(), nothing but custom can follow anything, and repeatable attributes have none of the methods. Proved: exactly which chains there are (everything else raises AttributeError), the value of each chain, that normalizers have the same chains and values, and what the two interpretation methods take. |
| C96 | EMAIL and PHONE tokens are addresses and phone numbers | partial | `email_token_is_the_address_refuted`, `phone_token_is_one_number_refuted`, `numbers_stay_whole_refuted`, `long_numbers_are_cut`, `email_tokens_are_addresses_partial`, `phone_tokens_have_digits_partial`, `address_alone_is_a_token`, `number_alone_is_a_token`, `address_between_spaces_is_a_token`, `library_rules_are_never_empty` | the claim about surroundings is false of the code: a full stop behind an address belongs to the token, three years in a row with the space before them are one PHONE token, numbers of more than 14 digits are cut; proved: the shape of the tokens, and that addresses and numbers standing alone (addresses also between spaces) are one token |
| C97 | Labels show the calls an object was made with | partial | `labels_show_the_calls_refuted`, `normalizer_labels_show_the_calls_partial`, `interpretator_labels_show_the_calls_partial`, `predicate_labels_are_calls`, `relation_labels_are_calls`, `drawings_show_text_and_colour` | false for one case: a function after normalized() or inflected(...) is written normalized().f instead of normalized().custom(f); proved exactly for all other normalizers and interpretators, for all predicates and relations, and for text and colour of all drawn objects |
| C98 | Every rule and tree can be printed | partial | `rules_of_parsers_are_printed_refuted`, `trees_are_printed_refuted`, `printing_ends_without_circles`, `printing_gives_one_text`, `written_rules_are_printed`, `printed_text_of_each_class`, `trees_are_printed_with_their_rules`, `pretty_printing_always_ends`, `pretty_printing_shows_the_same` | false of the code: Parser replaces forward rules by their definitions, so repr of the rule of a parser with a repetition, and of the trees of its matches, recurses for ever (RecursionError). Proved: printing ends exactly when no object is inside itself, it ends for all rules as written, what is printed for each class; pretty printing always ends and shows the same apart from white space where there are no forward rules. Texts of predicates, interpretators, relations, tokens and strings are parameters; the recursion limit is fuel |
| C99 | The chart shows what has been read | partial | `every_state_has_been_read`, `nothing_is_recorded_twice`, `all_readings_are_recorded_refuted`, `all_readings_are_recorded_partial`, `chart_text_has_a_block_for_every_column`, `state_lines_are_read_back`, `lines_tell_states_apart_refuted`, `lines_tell_states_apart_partial`, `chart_of_a_parser_is_printed` | false of the code: readings behind an empty part can be missing (witness S -> A B, B -> A 'c', A -> | 'a' on c), and ambiguous grammars print the same line for different states. Proved: every state has been read and is recorded once; exactly the readings are recorded when empty parts come in time (timely, AbsentSpec); the text has the blocks; lines with plain labels are read back, so equal lines mean equal places and labels; charts of parsers are printed when predicates and interpretators have labels. repr of a token is a parameter |
| C100 | The fact of a match is what the interpretations written in the rule say of its reading | partial | `fact_is_value_of_a_reading`, `interpretation_of_the_root_is_kept`, `fact_is_value_of_the_earliest_reading`, `matched_fact_is_value_of_the_earliest_reading`, `facts_of_rules_without_optional_parts`, `reading_has_one_value`, `told_reading_has_one_value`, `line_is_told_refuted`, `line_is_told_partial`, `line_of_the_earliest_reading_is_told_partial`, `fact_of_a_whole_match` | false of the code where a dictionary is used in two places: the interpretator over one of them is not told the line (witness rule(P.interpretation(name.normalized()), P), caseless_pipeline(['B']) on b b gives b). Proved: the fact is the value of a reading, each interpretator over a dictionary being told the line or nothing; of the earliest reading when empty parts come in time; readings without lines of dictionaries have one value. The line is told in grammars in which no rule with an interpretation begins with a dictionary that has none (lines_told, which can be computed). For rules in which no quantifier is put directly on a quantifier (flat) whose parser starts from an interpreted rule, which it does if the rule was made by .interpretation and is not a part of itself |
| C101 | A rule that is not a part of itself matches whole texts only | proved | `start_rule_is_not_used`, `match_is_of_the_whole_text`, `findall_of_a_matched_text`, `matched_facts_of_rules_without_optional_parts`, `match_is_of_the_whole_text_with_optional_parts`, `findall_of_a_matched_text_with_optional_parts`, `match_is_of_the_whole_text_refuted` | proved for the rules named in the quantifier; with parts that may be absent when these come in time (timely) and the rule does not accept the empty text. The refutation shows that the restriction is needed: a forward rule matches texts it does not accept (C62) |

## Seeded bugs

`seeded/LOG.jsonl` lists edits of the model that mimic realistic bugs, made in a scratch
copy, with the theorems that stopped proving. Where a claim became false and every theorem
still proved, the theorem was tightened (field `theorems_tightened`).

Correction. In 107 lines the property number of the claim had been replaced, by a script and
after the result was known, with that of a property whose theorems failed. These lines now
give the claim as it was tried, and a `note` says which property is not among those whose
theorems failed, and what the line said before. Edits are tried on copies that hold only some
of the property files, so that a property missing there is no proof that it survives; the
judgement in the note was made by reading. Most were wrong numbers given when the edit was tried. Not so: the
relation edits (C33 to C35 do not say what the relations are; C92 does), and the reversed
tokens in `parser_findall`, which C01 did not notice until
`findall_lists_matches_in_text_order` was added. `theorems_tightened` had in part been filled
in by the name of the edited definition. The twelve edits without a later line showing the
failure were tried again, marked "(tried again)": eleven break the theorem named; the edit of
`quantifier_symbol` broke none, only an example, and `question_mark_prefers_the_shortest` was
added for it.

Limits. "Failed" means that the proof of a theorem, or of a lemma it rests on, no longer went
through; this does not show that its statement became false. Known to be open: if `text_tokens`
lost the first token, probably no theorem would be false. The theorems about texts (C66, C101
and others) take the tokens it gives as those of the text; `tokens_spell_the_text` says that
each is a piece of the text, not that none is missing.
