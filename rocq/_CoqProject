-Q theories Verif
theories/Model/Base.v
theories/Proofs/BaseFacts.v
theories/Model/Deque.v
theories/Spec/Deque.v
theories/Proofs/DequeProofs.v
theories/Props/Deque.v
theories/Model/FlatMap.v
theories/Spec/FlatMap.v
theories/Proofs/FlatMapProofs.v
theories/Props/FlatMap.v
theories/Model/SortedVector.v
theories/Proofs/SortedVectorProofs.v
theories/Props/SortedVector.v
theories/Proofs/MatrixFacts.v
theories/Model/DataHeader.v
theories/Model/Storage.v
theories/Spec/Storage.v
theories/Spec/DataHeader.v
theories/Proofs/StorageProofs.v
theories/Props/Storage.v
theories/Model/Table.v
theories/Spec/Table.v
theories/Proofs/TableProofs.v
theories/Props/Table.v
theories/Model/DebugStorage.v
theories/Proofs/DebugStorageProofs.v
theories/Props/DebugStorage.v
theories/Model/FrameBuffer.v
theories/Spec/FrameBuffer.v
theories/Proofs/FrameBufferProofs.v
theories/Props/FrameBuffer.v
theories/Spec/Stats.v
theories/Model/StorageReal.v
theories/Proofs/StorageRealProofs.v
theories/Props/StorageReal.v
theories/Model/StdString.v
theories/Model/Strings.v
theories/Spec/Strings.v
theories/Proofs/StringFacts.v
theories/Proofs/StringsProofs.v
theories/Spec/Quote.v
theories/Proofs/QuoteProofs.v
theories/Props/Strings.v
theories/Props/Quote.v
theories/Model/Path.v
theories/Proofs/PathProofs.v
theories/Props/Path.v
theories/Model/Hash.v
theories/Spec/Hash.v
theories/Proofs/HashProofs.v
theories/Props/Hash.v
theories/Model/Dictionary.v
theories/Proofs/DictionaryProofs.v
theories/Props/Dictionary.v
theories/Model/Number.v
theories/Model/StringCast.v
theories/Model/Version.v
theories/Spec/Decimal.v
theories/Proofs/NumberProofs.v
theories/Props/StringCast.v
theories/Spec/Version.v
theories/Proofs/VersionProofs.v
theories/Props/Version.v
theories/Model/CharStream.v
theories/Spec/Scan.v
theories/Proofs/ScanProofs.v
theories/Props/Scan.v
theories/Spec/Token.v
theories/Proofs/TokenProofs.v
theories/Props/Token.v
theories/Model/PropTree.v
theories/Model/PropFile.v
theories/Proofs/PropParse.v
theories/Spec/PropText.v
theories/Proofs/PropFileProofs.v
theories/Proofs/PropLoss.v
theories/Props/PropFile.v
theories/Model/PropNode.v
theories/Spec/PropNode.v
theories/Proofs/PropNodeProofs.v
theories/Props/PropNode.v
theories/Model/Ini.v
theories/Spec/Ini.v
theories/Proofs/IniProofs.v
theories/Props/Ini.v
theories/Model/Include.v
theories/Spec/Include.v
theories/Proofs/IncludeProofs.v
theories/Props/Include.v
theories/Model/PropCast.v
theories/Spec/PropCast.v
theories/Proofs/PropCastProofs.v
theories/Props/PropCast.v
theories/Model/Log.v
theories/Spec/Log.v
theories/Proofs/LogProofs.v
theories/Props/Log.v
theories/Model/Profiler.v
theories/Spec/Profiler.v
theories/Proofs/ProfilerProofs.v
theories/Props/Profiler.v
theories/Model/Stopwatch.v
theories/Spec/Stopwatch.v
theories/Proofs/StopwatchProofs.v
theories/Props/Stopwatch.v
theories/Model/TestFramework.v
theories/Spec/TestFramework.v
theories/Proofs/TestFrameworkProofs.v
theories/Props/TestFramework.v
theories/Model/FlagSet.v
theories/Spec/FlagSet.v
theories/Proofs/FlagSetProofs.v
theories/Props/FlagSet.v
theories/Model/Memoize.v
theories/Spec/Memoize.v
theories/Proofs/MemoizeProofs.v
theories/Props/Memoize.v
theories/Model/FileSystem.v
theories/Spec/FileSystem.v
theories/Proofs/FileSystemProofs.v
theories/Props/FileSystem.v
theories/Model/Math.v
theories/Spec/Math.v
theories/Proofs/MathProofs.v
theories/Proofs/PiProofs.v
theories/Props/Math.v
theories/Model/Vec3.v
theories/Spec/Vec3.v
theories/Proofs/Vec3Proofs.v
theories/Props/Vec3.v
theories/Model/Box.v
theories/Spec/Box.v
theories/Proofs/BoxProofs.v
theories/Props/Box.v
theories/Model/Regression.v
theories/Spec/Regression.v
theories/Proofs/RegressionProofs.v
theories/Props/Regression.v
theories/Model/Interp.v
theories/Spec/Interp.v
theories/Proofs/InterpProofs.v
theories/Props/Interp.v
theories/Model/Spline.v
theories/Spec/Spline.v
theories/Proofs/SplineProofs.v
theories/Props/Spline.v
theories/Model/Filter.v
theories/Spec/Filter.v
theories/Proofs/FilterProofs.v
theories/Props/Filter.v
theories/Model/Delayer.v
theories/Spec/Delayer.v
theories/Proofs/DelayerProofs.v
theories/Props/Delayer.v
theories/Model/Range.v
theories/Spec/Range.v
theories/Proofs/RangeProofs.v
theories/Props/Range.v
theories/Model/Average.v
theories/Spec/Average.v
theories/Proofs/AverageProofs.v
theories/Props/Average.v
theories/Model/Optional.v
theories/Spec/Optional.v
theories/Proofs/OptionalProofs.v
theories/Props/Optional.v
theories/Model/Containers.v
theories/Spec/Containers.v
theories/Proofs/ContainersProofs.v
theories/Props/Containers.v
theories/Model/Dynarray.v
theories/Spec/Dynarray.v
theories/Proofs/DynarrayProofs.v
theories/Props/Dynarray.v
theories/Model/Identifier.v
theories/Spec/Identifier.v
theories/Proofs/IdentifierProofs.v
theories/Props/Identifier.v
theories/Model/Timer.v
theories/Spec/Timer.v
theories/Proofs/TimerProofs.v
theories/Props/Timer.v
theories/Model/PatternMatcher.v
theories/Props/PatternMatcher.v
theories/Model/Persist.v
theories/Props/Persist.v
theories/Model/Clone.v
theories/Props/Clone.v
theories/Model/PropPrint.v
theories/Spec/PropPrint.v
theories/Proofs/PropPrintProofs.v
theories/Props/PropPrint.v
theories/Model/Sample.v
theories/Props/Sample.v
theories/Model/RapidXml.v
theories/Model/Xml.v
theories/Spec/Xml.v
theories/Proofs/RapidXmlProofs.v
theories/Proofs/XmlProofs.v
theories/Proofs/XmlSaveProofs.v
theories/Props/Xml.v
theories/Model/LogFile.v
theories/Spec/LogFile.v
theories/Proofs/LogFileProofs.v
theories/Props/LogFile.v
theories/Model/FloatText.v
theories/Spec/FloatText.v
theories/Proofs/FloatScanProofs.v
theories/Proofs/FloatTextProofs.v
theories/Props/FloatText.v
theories/Model/Ieee.v
theories/Spec/Ieee.v
theories/Proofs/IeeeProofs.v
theories/Model/FloatMath.v
theories/Props/FloatOrder.v
theories/Props/FloatBounds.v
theories/Proofs/IeeeErrorProofs.v
theories/Props/FloatEquals.v
theories/Props/FloatWrap.v
theories/Props/FloatAverage.v
theories/Model/FloatVec.v
theories/Proofs/IeeeSqrtProofs.v
theories/Props/FloatSqrt.v
theories/Props/FloatVec.v
theories/Model/FloatInterp.v
theories/Proofs/FloatInterpProofs.v
theories/Props/FloatInterp.v
theories/Model/FloatTable.v
theories/Proofs/FloatOpsProofs.v
theories/Proofs/FloatTableProofs.v
theories/Props/FloatTable.v
theories/Spec/FloatTable.v
theories/Model/FloatPoly.v
theories/Proofs/FloatPolyProofs.v
theories/Props/FloatPoly.v
theories/Model/FloatContainers.v
theories/Proofs/FloatContainersProofs.v
theories/Props/FloatContainers.v
theories/Model/FloatStream.v
theories/Spec/FloatStream.v
theories/Proofs/FloatStreamProofs.v
theories/Props/FloatStream.v
theories/Model/TableText.v
theories/Spec/TableText.v
theories/Proofs/TableTextProofs.v
theories/Props/TableText.v
theories/Spec/Rounding.v
theories/Proofs/RoundingProofs.v
theories/Model/FloatQuat.v
theories/Model/FloatFilter.v
theories/Spec/FloatQuat.v
theories/Spec/FloatFilter.v
theories/Proofs/FloatFilterProofs.v
theories/Props/FloatQuat.v
theories/Props/FloatFilter.v
theories/Model/Report.v
theories/Spec/Report.v
theories/Proofs/ReportProofs.v
theories/Proofs/ReportTreeProofs.v
theories/Props/Report.v
theories/Model/FloatStopwatch.v
theories/Model/FloatStats.v
theories/Spec/FloatStopwatch.v
theories/Spec/FloatStats.v
theories/Proofs/FloatStopwatchProofs.v
theories/Proofs/FloatStatsProofs.v
theories/Props/FloatStopwatch.v
theories/Props/FloatStats.v
theories/Model/TestLog.v
theories/Spec/TestLog.v
theories/Proofs/TestLogProofs.v
theories/Props/TestLog.v
theories/Model/FloatSpline.v
theories/Model/FloatLength.v
theories/Spec/FloatSpline.v
theories/Spec/FloatLength.v
theories/Props/FloatSpline.v
theories/Props/FloatLength.v
