-Q theories Verif
theories/Base.v
theories/Utf8.v
theories/Flags.v
theories/Umbra.v
theories/Bag.v
theories/Condition.v
theories/Affix.v
theories/CompoundRule.v
theories/Conversion.v
theories/Unicode.v
theories/Aff.v
theories/Checker.v
theories/AffixSpec.v
theories/Rep.v
theories/CompoundSpec.v
theories/CompoundTotal.v
theories/CompoundExact.v
theories/RuleCompound.v
theories/Spell.v
theories/CheckSpec.v
theories/CheckMono.v
theories/CheckProps.v
theories/Parser.v
theories/ParserSafe.v
theories/Lib.v
theories/LibSpec.v
theories/LibProps.v
theories/ParserProps.v
theories/TableProps.v
theories/Grammar.v
theories/BufferOps.v
theories/Ngram.v
theories/Suggester.v
theories/SuggestSpec.v
theories/SuggestLow.v
theories/SuggestMono.v
theories/Dedup.v
theories/SuggestProps.v
theories/SuggestTotal.v
theories/Hangs.v
theories/Depth.v
theories/CharsStr.v
theories/Scratch.v
theories/NgramMeasures.v
theories/NgramProps.v
theories/NgramRank.v
theories/SuggestImpl.v
theories/LibSuggest.v
theories/Api.v
theories/Examples.v
theories/Properties_Storage.v
theories/Properties_Affix.v
theories/Properties_Compound.v
theories/Properties_Check.v
theories/Properties_Dict.v
theories/Properties_Parse.v
theories/DicGrammar.v
theories/Properties_Grammar.v
theories/Properties_Dic.v
theories/ErrorGrammar.v
theories/Properties_Errors.v
theories/Display.v
theories/Properties_Messages.v
theories/Properties_Casing.v
theories/Properties_Suggest.v
theories/Properties_Edit.v
theories/Properties_Ngram.v
theories/Properties_Pipeline.v
theories/Properties_Total.v
theories/Properties_Api.v
theories/Syllables.v
theories/Properties_Syllable.v
theories/Properties_Boundary.v
theories/Properties_Depth.v
theories/Properties_Bytes.v
theories/PlainAdd.v
theories/EntryChange.v
theories/Properties_Add.v
theories/Properties_Remove.v
theories/ScoreArith.v
theories/ScoreProps.v
theories/Properties_Score.v
theories/FlagNames.v
theories/NamesProps.v
theories/Properties_Names.v
theories/SilentLines.v
theories/Properties_Silent.v
theories/SuggestNames.v
theories/Properties_Typos.v
theories/Properties_Ties.v
theories/Properties_AddSuggest.v
theories/ByteCompound.v
theories/ByteOffsets.v
theories/ByteCompoundSpec.v
theories/Properties_Offsets.v
theories/ByteCheck.v
theories/ByteCheckSpec.v
theories/Properties_ByteCheck.v
theories/ByteSuggest.v
theories/ByteSuggestSpec.v
theories/Properties_ByteSuggest.v
theories/Properties_Sound.v
theories/Properties_Never.v
theories/Properties_Chain.v
theories/Properties_SuggestNames.v
theories/Properties_SilentSuggest.v
