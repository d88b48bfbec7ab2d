(** Generated by tools/texts.py: the schema documents of the repository, byte for byte. *)
From Coq Require Import String Ascii List.
From Verif Require Import ParseSpec.
Local Open Scope list_scope.
Local Open Scope string_scope.
Import ListNotations.
Local Notation lf := [ascii_of_nat 10].
Local Notation tabs n := (repeat (ascii_of_nat 9) n).

(** src/SchemaLoader.cpp:46-147 *)
Definition introspection_text : text :=
  lf ++ tabs 3 ++ chars "type __Schema {" ++ lf ++ tabs 4 ++ chars "types: [__Type!]!" ++ lf ++ tabs 4 ++ chars "queryType: __Type!" ++ lf ++ tabs 4
   ++ chars "mutationType: __Type" ++ lf ++ tabs 4 ++ chars "subscriptionType: __Type" ++ lf ++ tabs 4 ++ chars "directives: [__Directive!]!" ++ lf
   ++ tabs 3 ++ chars "}" ++ lf ++ lf ++ tabs 3 ++ chars "type __Type {" ++ lf ++ tabs 4 ++ chars "kind: __TypeKind!" ++ lf ++ tabs 4
   ++ chars "name: String" ++ lf ++ tabs 4 ++ chars "description: String" ++ lf ++ lf ++ tabs 4 ++ chars "# OBJECT and INTERFACE only" ++ lf ++ tabs 4
   ++ chars "fields(includeDeprecated: Boolean = false): [__Field!]" ++ lf ++ lf ++ tabs 4 ++ chars "# OBJECT only" ++ lf ++ tabs 4
   ++ chars "interfaces: [__Type!]" ++ lf ++ lf ++ tabs 4 ++ chars "# INTERFACE and UNION only" ++ lf ++ tabs 4 ++ chars "possibleTypes: [__Type!]"
   ++ lf ++ lf ++ tabs 4 ++ chars "# ENUM only" ++ lf ++ tabs 4 ++ chars "enumValues(includeDeprecated: Boolean = false): [__EnumValue!]" ++ lf ++ lf
   ++ tabs 4 ++ chars "# INPUT_OBJECT only" ++ lf ++ tabs 4 ++ chars "inputFields: [__InputValue!]" ++ lf ++ lf ++ tabs 4
   ++ chars "# NON_NULL and LIST only" ++ lf ++ tabs 4 ++ chars "ofType: __Type" ++ lf ++ tabs 3 ++ chars "}" ++ lf ++ lf ++ tabs 3
   ++ chars "type __Field {" ++ lf ++ tabs 4 ++ chars "name: String!" ++ lf ++ tabs 4 ++ chars "description: String" ++ lf ++ tabs 4
   ++ chars "args: [__InputValue!]!" ++ lf ++ tabs 4 ++ chars "type: __Type!" ++ lf ++ tabs 4 ++ chars "isDeprecated: Boolean!" ++ lf ++ tabs 4
   ++ chars "deprecationReason: String" ++ lf ++ tabs 3 ++ chars "}" ++ lf ++ lf ++ tabs 3 ++ chars "type __InputValue {" ++ lf ++ tabs 4
   ++ chars "name: String!" ++ lf ++ tabs 4 ++ chars "description: String" ++ lf ++ tabs 4 ++ chars "type: __Type!" ++ lf ++ tabs 4
   ++ chars "defaultValue: String" ++ lf ++ tabs 3 ++ chars "}" ++ lf ++ lf ++ tabs 3 ++ chars "type __EnumValue {" ++ lf ++ tabs 4
   ++ chars "name: String!" ++ lf ++ tabs 4 ++ chars "description: String" ++ lf ++ tabs 4 ++ chars "isDeprecated: Boolean!" ++ lf ++ tabs 4
   ++ chars "deprecationReason: String" ++ lf ++ tabs 3 ++ chars "}" ++ lf ++ lf ++ tabs 3 ++ chars "enum __TypeKind {" ++ lf ++ tabs 4
   ++ chars "SCALAR" ++ lf ++ tabs 4 ++ chars "OBJECT" ++ lf ++ tabs 4 ++ chars "INTERFACE" ++ lf ++ tabs 4 ++ chars "UNION" ++ lf ++ tabs 4
   ++ chars "ENUM" ++ lf ++ tabs 4 ++ chars "INPUT_OBJECT" ++ lf ++ tabs 4 ++ chars "LIST" ++ lf ++ tabs 4 ++ chars "NON_NULL" ++ lf ++ tabs 3
   ++ chars "}" ++ lf ++ lf ++ tabs 3 ++ chars "type __Directive {" ++ lf ++ tabs 4 ++ chars "name: String!" ++ lf ++ tabs 4
   ++ chars "description: String" ++ lf ++ tabs 4 ++ chars "locations: [__DirectiveLocation!]!" ++ lf ++ tabs 4 ++ chars "args: [__InputValue!]!" ++ lf
   ++ tabs 3 ++ chars "}" ++ lf ++ lf ++ tabs 3 ++ chars "enum __DirectiveLocation {" ++ lf ++ tabs 4 ++ chars "QUERY" ++ lf ++ tabs 4
   ++ chars "MUTATION" ++ lf ++ tabs 4 ++ chars "SUBSCRIPTION" ++ lf ++ tabs 4 ++ chars "FIELD" ++ lf ++ tabs 4 ++ chars "FRAGMENT_DEFINITION" ++ lf
   ++ tabs 4 ++ chars "FRAGMENT_SPREAD" ++ lf ++ tabs 4 ++ chars "INLINE_FRAGMENT" ++ lf ++ tabs 4 ++ chars "SCHEMA" ++ lf ++ tabs 4 ++ chars "SCALAR"
   ++ lf ++ tabs 4 ++ chars "OBJECT" ++ lf ++ tabs 4 ++ chars "FIELD_DEFINITION" ++ lf ++ tabs 4 ++ chars "ARGUMENT_DEFINITION" ++ lf ++ tabs 4
   ++ chars "INTERFACE" ++ lf ++ tabs 4 ++ chars "UNION" ++ lf ++ tabs 4 ++ chars "ENUM" ++ lf ++ tabs 4 ++ chars "ENUM_VALUE" ++ lf ++ tabs 4
   ++ chars "INPUT_OBJECT" ++ lf ++ tabs 4 ++ chars "INPUT_FIELD_DEFINITION" ++ lf ++ tabs 3 ++ chars "}" ++ lf ++ lf ++ tabs 3
   ++ chars "# These directives are always defined and should be included in the Introspection schema." ++ lf ++ tabs 3
   ++ chars "directive @skip(if: Boolean!) on FIELD | FRAGMENT_SPREAD | INLINE_FRAGMENT" ++ lf ++ tabs 3
   ++ chars "directive @include(if: Boolean!) on FIELD | FRAGMENT_SPREAD | INLINE_FRAGMENT" ++ lf ++ tabs 3 ++ chars "directive @deprecated(" ++ lf
   ++ tabs 4 ++ chars "reason: String = ""No longer supported""" ++ lf ++ tabs 3 ++ chars ") on FIELD_DEFINITION | ENUM_VALUE" ++ lf ++ tabs 2.
(** samples/schema.today.graphql *)
Definition today_text : text :=
  chars "# Copyright (c) Microsoft Corporation. All rights reserved." ++ lf ++ chars "# Licensed under the MIT License." ++ lf ++ lf ++ chars "schema {"
   ++ lf ++ chars "    query: Query" ++ lf ++ chars "    mutation: Mutation" ++ lf ++ chars "    subscription: Subscription" ++ lf ++ chars "}" ++ lf
   ++ lf ++ chars "scalar ItemCursor" ++ lf ++ lf ++ chars "directive @id on FIELD_DEFINITION" ++ lf ++ lf ++ chars """Root Query type""" ++ lf
   ++ chars "type Query {" ++ lf
   ++ chars "    """"""[Object Identification](https://facebook.github.io/relay/docs/en/graphql-server-specification.html#object-identification)"""""""
   ++ lf ++ chars "    node(id: ID!) : Node" ++ lf ++ lf
   ++ chars "    """"""Appointments [Connection](https://facebook.github.io/relay/docs/en/graphql-server-specification.html#connections)""""""" ++ lf
   ++ chars "    appointments(first: Int, after: ItemCursor, last: Int, before: ItemCursor): AppointmentConnection!" ++ lf
   ++ chars "    """"""Tasks [Connection](https://facebook.github.io/relay/docs/en/graphql-server-specification.html#connections)""""""" ++ lf
   ++ chars "    tasks(first: Int, after: ItemCursor, last: Int, before: ItemCursor): TaskConnection!" ++ lf
   ++ chars "    """"""Folder unread counts [Connection](https://facebook.github.io/relay/docs/en/graphql-server-specification.html#connections)"""""""
   ++ lf ++ chars "    unreadCounts(first: Int, after: ItemCursor, last: Int, before: ItemCursor): FolderConnection!" ++ lf ++ lf
   ++ chars "    appointmentsById(ids: [ID!]! = [""ZmFrZUFwcG9pbnRtZW50SWQ=""]) : [Appointment]!" ++ lf ++ chars "    tasksById(ids: [ID!]!): [Task]!"
   ++ lf ++ chars "    unreadCountsById(ids: [ID!]!): [Folder]!" ++ lf ++ lf ++ chars "    nested: NestedType!" ++ lf ++ lf
   ++ chars "    unimplemented: String!" ++ lf ++ lf ++ chars "    expensive: [Expensive!]!" ++ lf ++ lf ++ chars "    testTaskState: TaskState!" ++ lf
   ++ lf ++ chars "    anyType(ids: [ID!]!): [UnionType]!" ++ lf ++ chars "}" ++ lf ++ lf ++ chars """Node interface for Relay support""" ++ lf
   ++ chars "interface Node {" ++ lf ++ chars "    id: ID!" ++ lf ++ chars "}" ++ lf ++ lf ++ chars "type PageInfo {" ++ lf
   ++ chars "    hasNextPage: Boolean!" ++ lf ++ chars "    hasPreviousPage: Boolean!" ++ lf ++ chars "}" ++ lf ++ lf ++ chars "type AppointmentEdge {"
   ++ lf ++ chars "    node: Appointment" ++ lf ++ chars "    cursor: ItemCursor!" ++ lf ++ chars "}" ++ lf ++ lf
   ++ chars "type AppointmentConnection {" ++ lf ++ chars "    pageInfo: PageInfo!" ++ lf ++ chars "    edges: [AppointmentEdge]" ++ lf ++ chars "}"
   ++ lf ++ lf ++ chars "type TaskEdge {" ++ lf ++ chars "    node: Task" ++ lf ++ chars "    cursor: ItemCursor!" ++ lf ++ chars "}" ++ lf ++ lf
   ++ chars "type TaskConnection {" ++ lf ++ chars "    pageInfo: PageInfo!" ++ lf ++ chars "    edges: [TaskEdge]" ++ lf ++ chars "}" ++ lf ++ lf
   ++ chars "type FolderEdge {" ++ lf ++ chars "    node: Folder" ++ lf ++ chars "    cursor: ItemCursor!" ++ lf ++ chars "}" ++ lf ++ lf
   ++ chars "type FolderConnection {" ++ lf ++ chars "    pageInfo: PageInfo!" ++ lf ++ chars "    edges: [FolderEdge]" ++ lf ++ chars "}" ++ lf ++ lf
   ++ chars "input CompleteTaskInput {" ++ lf ++ chars "    id: ID!" ++ lf ++ chars "    testTaskState: TaskState" ++ lf
   ++ chars "    isComplete: Boolean = true" ++ lf ++ chars "    clientMutationId: String" ++ lf ++ chars "}" ++ lf ++ lf
   ++ chars "type CompleteTaskPayload {" ++ lf ++ chars "    task: Task" ++ lf ++ chars "    clientMutationId: String" ++ lf ++ chars "}" ++ lf ++ lf
   ++ chars "type Mutation {" ++ lf ++ chars "    completeTask(input: CompleteTaskInput!) : CompleteTaskPayload!" ++ lf
   ++ chars "    setFloat(value: Float!): Float!" ++ lf ++ chars "}" ++ lf ++ lf ++ chars "type Subscription {" ++ lf
   ++ chars "    nextAppointmentChange : Appointment @deprecated(" ++ lf
   ++ chars "        reason:""""""Need to deprecate a [field](http://spec.graphql.org/June2018/#sec-Deprecation)""""""" ++ lf ++ chars "    )" ++ lf
   ++ chars "    nodeChange(id: ID!): Node!" ++ lf ++ chars "}" ++ lf ++ lf ++ chars "directive @subscriptionTag(field: String) on SUBSCRIPTION" ++ lf
   ++ lf ++ chars "scalar DateTime" ++ lf ++ lf ++ chars "enum TaskState {" ++ lf ++ chars "    New" ++ lf ++ chars "    Started" ++ lf
   ++ chars "    Complete" ++ lf ++ chars "    Unassigned @deprecated(" ++ lf
   ++ chars "        reason:""""""Need to deprecate an [enum value](http://spec.graphql.org/June2018/#sec-Deprecation)""""""" ++ lf ++ chars "    )"
   ++ lf ++ chars "}" ++ lf ++ lf ++ chars "type Appointment implements Node {" ++ lf ++ chars "    id: ID!" ++ lf ++ chars "    when: DateTime" ++ lf
   ++ chars "    subject: String" ++ lf ++ chars "    isNow: Boolean!" ++ lf ++ chars "    forceError: String" ++ lf ++ chars "}" ++ lf ++ lf
   ++ chars "type Task implements Node {" ++ lf ++ chars "    id: ID!" ++ lf ++ chars "    title: String" ++ lf ++ chars "    isComplete: Boolean!"
   ++ lf ++ chars "}" ++ lf ++ lf ++ chars "type Folder implements Node {" ++ lf ++ chars "    id: ID!" ++ lf ++ chars "    name: String" ++ lf
   ++ chars "    unreadCount: Int!" ++ lf ++ chars "}" ++ lf ++ lf ++ chars "union UnionType = Appointment | Task | Folder" ++ lf ++ lf
   ++ chars "directive @queryTag(query: String!) on QUERY" ++ lf ++ chars "directive @fieldTag(field: String!) on FIELD" ++ lf
   ++ chars "directive @fragmentDefinitionTag(fragmentDefinition: String!) on FRAGMENT_DEFINITION" ++ lf
   ++ chars "directive @fragmentSpreadTag(fragmentSpread: String!) on FRAGMENT_SPREAD" ++ lf
   ++ chars "directive @inlineFragmentTag(inlineFragment: String!) on INLINE_FRAGMENT" ++ lf ++ lf
   ++ chars """Infinitely nestable type which can be used with nested fragments to test directive handling""" ++ lf ++ chars "type NestedType {" ++ lf
   ++ chars "    ""Depth of the nested element""" ++ lf ++ chars "    depth: Int!" ++ lf ++ chars "    ""Link to the next level""" ++ lf
   ++ chars "    nested: NestedType!" ++ lf ++ chars "}" ++ lf ++ lf ++ chars "type Expensive {" ++ lf ++ chars "    order: Int!" ++ lf ++ chars "}"
   ++ lf ++ lf ++ chars "input FirstNestedInput {" ++ lf ++ chars "    id: ID!" ++ lf ++ chars "    second: SecondNestedInput!" ++ lf
   ++ chars "    third: ThirdNestedInput!" ++ lf ++ chars "}" ++ lf ++ lf ++ chars "input SecondNestedInput {" ++ lf ++ chars "    id: ID!" ++ lf
   ++ chars "    third: ThirdNestedInput!" ++ lf ++ chars "}" ++ lf ++ lf ++ chars "input ThirdNestedInput {" ++ lf ++ chars "    id: ID!" ++ lf
   ++ chars "}" ++ lf ++ lf ++ chars "input FourthNestedInput {" ++ lf ++ chars "    id: ID!" ++ lf ++ chars "}" ++ lf.
(** samples/schema.validation.graphql *)
Definition validation_text : text :=
  chars "# Copyright (c) Microsoft Corporation. All rights reserved." ++ lf ++ chars "# Licensed under the MIT License." ++ lf ++ lf
   ++ chars """GraphQL validation [sample](http://spec.graphql.org/June2018/#example-26a9d)""" ++ lf ++ chars "type Query {" ++ lf ++ chars "  dog: Dog"
   ++ lf ++ chars "}" ++ lf ++ lf ++ chars "enum DogCommand { SIT, DOWN, HEEL }" ++ lf ++ lf ++ chars "type Dog implements Pet {" ++ lf
   ++ chars "  name: String!" ++ lf ++ chars "  nickname: String" ++ lf ++ chars "  barkVolume: Int" ++ lf
   ++ chars "  doesKnowCommand(dogCommand: DogCommand!): Boolean!" ++ lf ++ chars "  isHousetrained(atOtherHomes: Boolean): Boolean!" ++ lf
   ++ chars "  owner: Human" ++ lf ++ chars "}" ++ lf ++ lf ++ chars "interface Sentient {" ++ lf ++ chars "  name: String!" ++ lf ++ chars "}" ++ lf
   ++ lf ++ chars "interface Pet {" ++ lf ++ chars "  name: String!" ++ lf ++ chars "}" ++ lf ++ lf ++ chars "type Alien implements Sentient {" ++ lf
   ++ chars "  name: String!" ++ lf ++ chars "  homePlanet: String" ++ lf ++ chars "}" ++ lf ++ lf ++ chars "type Human implements Sentient {" ++ lf
   ++ chars "  name: String!" ++ lf ++ chars "}" ++ lf ++ lf ++ chars "enum CatCommand { JUMP }" ++ lf ++ lf ++ chars "type Cat implements Pet {" ++ lf
   ++ chars "  name: String!" ++ lf ++ chars "  nickname: String" ++ lf ++ chars "  doesKnowCommand(catCommand: CatCommand!): Boolean!" ++ lf
   ++ chars "  meowVolume: Int" ++ lf ++ chars "}" ++ lf ++ lf ++ chars "union CatOrDog = Cat | Dog" ++ lf ++ chars "union DogOrHuman = Dog | Human"
   ++ lf ++ chars "union HumanOrAlien = Human | Alien" ++ lf ++ lf
   ++ chars """Support for [Counter Example 94](http://spec.graphql.org/June2018/#example-77c2e)""" ++ lf ++ chars "type Mutation {" ++ lf
   ++ chars "  mutateDog: MutateDogResult" ++ lf ++ chars "}" ++ lf ++ lf
   ++ chars """Support for [Counter Example 94](http://spec.graphql.org/June2018/#example-77c2e)""" ++ lf ++ chars "type MutateDogResult {" ++ lf
   ++ chars "  id: ID!" ++ lf ++ chars "}" ++ lf ++ lf
   ++ chars """Support for [Example 97](http://spec.graphql.org/June2018/#example-5bbc3) - [Counter Example 101](http://spec.graphql.org/June2018/#example-2353b)"""
   ++ lf ++ chars "type Subscription {" ++ lf
   ++ chars "  ""Support for [Example 97](http://spec.graphql.org/June2018/#example-5bbc3) - [Counter Example 101](http://spec.graphql.org/June2018/#example-2353b)"""
   ++ lf ++ chars "  newMessage: Message!" ++ lf
   ++ chars "  ""Support for [Counter Example 99](http://spec.graphql.org/June2018/#example-3997d) - [Counter Example 100](http://spec.graphql.org/June2018/#example-18466)"""
   ++ lf ++ chars "  disallowedSecondRootField: Boolean!" ++ lf ++ chars "}" ++ lf ++ lf
   ++ chars """Support for [Example 97](http://spec.graphql.org/June2018/#example-5bbc3) - [Counter Example 101](http://spec.graphql.org/June2018/#example-2353b)"""
   ++ lf ++ chars "type Message {" ++ lf ++ chars "  body: String" ++ lf ++ chars "  sender: ID!" ++ lf ++ chars "}" ++ lf ++ lf
   ++ chars "# http://spec.graphql.org/June2018/#example-9bada" ++ lf ++ chars "extend type Query {" ++ lf
   ++ chars "  ""Support for [Counter Example 116](http://spec.graphql.org/June2018/#example-77c2e)""" ++ lf ++ chars "  human: Human" ++ lf
   ++ chars "  ""Support for [Counter Example 116](http://spec.graphql.org/June2018/#example-77c2e)""" ++ lf ++ chars "  pet: Pet" ++ lf
   ++ chars "  ""Support for [Counter Example 116](http://spec.graphql.org/June2018/#example-77c2e)""" ++ lf ++ chars "  catOrDog: CatOrDog" ++ lf
   ++ chars "}" ++ lf ++ lf ++ chars """Support for [Example 120](http://spec.graphql.org/June2018/#example-1891c)""" ++ lf ++ chars "type Arguments {"
   ++ lf ++ chars "  ""Support for [Example 121](http://spec.graphql.org/June2018/#example-18fab)""" ++ lf
   ++ chars "  multipleReqs(x: Int!, y: Int!): Int!" ++ lf ++ chars "  booleanArgField(booleanArg: Boolean): Boolean" ++ lf
   ++ chars "  floatArgField(floatArg: Float): Float" ++ lf ++ chars "  intArgField(intArg: Int): Int" ++ lf
   ++ chars "  nonNullBooleanArgField(nonNullBooleanArg: Boolean!): Boolean!" ++ lf
   ++ chars "  nonNullBooleanListField(nonNullBooleanListArg: [Boolean!]): [Boolean!]" ++ lf
   ++ chars "  booleanListArgField(booleanListArg: [Boolean]!): [Boolean]" ++ lf
   ++ chars "  optionalNonNullBooleanArgField(optionalBooleanArg: Boolean! = false): Boolean!" ++ lf ++ chars "}" ++ lf ++ lf
   ++ chars "# http://spec.graphql.org/June2018/#example-1891c" ++ lf ++ chars "extend type Query {" ++ lf
   ++ chars "  ""Support for [Example 120](http://spec.graphql.org/June2018/#example-1891c)""" ++ lf ++ chars "  arguments: Arguments" ++ lf
   ++ chars "}" ++ lf ++ lf ++ chars "# http://spec.graphql.org/June2018/#example-6bbad" ++ lf ++ chars "extend type Human {" ++ lf
   ++ chars "  ""Support for [Counter Example 136](http://spec.graphql.org/June2018/#example-6bbad)""" ++ lf ++ chars "  pets: [Pet!]!" ++ lf
   ++ chars "}" ++ lf ++ lf ++ chars """[Example 155](http://spec.graphql.org/June2018/#example-f3185)""" ++ lf ++ chars "input ComplexInput {" ++ lf
   ++ chars "  name: String" ++ lf ++ chars "  owner: String" ++ lf ++ chars "}" ++ lf ++ lf ++ chars "extend type Query {" ++ lf
   ++ chars "  ""[Example 155](http://spec.graphql.org/June2018/#example-f3185)""" ++ lf ++ chars "  findDog(complex: ComplexInput): Dog" ++ lf
   ++ chars "  ""[Example 155](http://spec.graphql.org/June2018/#example-f3185)""" ++ lf ++ chars "  booleanList(booleanListArg: [Boolean!]): Boolean"
   ++ lf ++ chars "}" ++ lf.
